(** Keys of curves with arbitrary counting histories, and of their quadratic twists. *)
Set Warnings "-notation-overridden,-ambiguous-paths".
From mathcomp Require Import all_ssreflect ssralg ssrint poly polydiv finalg zify.
From Verif Require Import Res ResFacts FinField Tables TablesSpec TablesProofs CurveSpec Curve PointSpec PointCount
  CurveProofs PointMath CurveHistory FieldExt RamSpec Irred Ramify OMap Store.

Set Implicit Arguments.
Unset Strict Implicit.
Unset Printing Implicit Defensive.
Import GRing.Theory.
Local Open Scope ring_scope.

(** ** Twisting keys *)
Lemma twist_offsetsK b s : twist_offsets b (twist_offsets b s) = s.
Proof. by elim: s b => [|x s IH] [] //=; rewrite ?opprK IH. Qed.

Lemma twistK k : twist (twist k) = k.
Proof. by case: k => a b; rewrite /twist /= twist_offsetsK. Qed.

Lemma twist_mkseq (h : nat -> int) n :
  twist_offsets true (mkseq h n) = mkseq (fun j => if odd j then h j else - h j) n.
Proof.
rewrite /mkseq; have : odd 0 = ~~ true by []; move: 0%N true.
elim: n => [|n IH] i b Hi //=; rewrite (IH i.+1 (~~ b)) /= ?Hi //.
by case: b {Hi}.
Qed.

Section Keys.
Variables (F : finFieldType) (g : F) (p r W : nat).
Local Notation rhs c := (poly_of g (c_coeffs c)).
Local Notation q := #|F|.

(** ** The key as a function of the polynomial *)
Definition base_offset (f : {poly F}) (j : nat) : int :=
  (q ^ j + 1)%:Z - ((base_counts (q ^ j) f).1 + (base_counts (q ^ j) f).2)%:Z.
Definition base_key (n : nat) (f : {poly F}) : key :=
  (ramification f, mkseq (fun j => base_offset f j.+1) n).

Lemma base_offsetE f j (L : finFieldType) (emb : {rmorphism F -> L}) :
  odd q -> f != 0 -> #|L| = (q ^ j)%N ->
  base_offset f j = (q ^ j + 1)%:Z - (curve_points (map_poly emb f))%:Z.
Proof.
move=> Ho Hf HL; have HoL : odd #|L| by rewrite HL oddX Ho orbT.
have Hf' : map_poly emb f != 0 by rewrite map_poly_eq0.
rewrite /base_offset -HL -(base_countsE emb HoL Hf).
by rewrite true_countsE //= -points_split.
Qed.

Lemma ramification_scale (s : F) (f : {poly F}) : s != 0 -> ramification (s *: f) = ramification f.
Proof.
move=> Hs; rewrite /ramification /prime_divisors size_scale //; do 2 congr (_ _); congr map.
by apply: eq_filter => P; rewrite dvdpZr.
Qed.

Lemma base_key_twist n (s : F) (f : {poly F}) : odd q -> s != 0 -> ~~ sqnz s -> f != 0 ->
  base_key n (s *: f) = twist (base_key n f).
Proof.
move=> Ho Hs Hn Hf; rewrite /base_key /twist ramification_scale // twist_mkseq.
congr pair; apply: eq_mkseq => j.
have [L [emb HL]] := extension_exists F (ltn0Sn j).
have HoL : odd #|L| by rewrite HL oddX Ho orbT.
have Hf' : map_poly emb f != 0 by rewrite map_poly_eq0.
have Hs' : emb s != 0 by rewrite fmorph_eq0.
have Hsf : s *: f != 0 by rewrite scale_poly_eq0 (negbTE Hs).
rewrite !(base_offsetE emb Ho _ HL) // map_polyZ.
have := sqnz_ext emb Ho HL Hs; rewrite (negbTE Hn) /= negbK; case: (odd j) => E.
  rewrite /curve_points.
  have Hn2 : (true_counts (emb s *: map_poly emb f)) = true_counts (map_poly emb f).
    exact: counts_square_twist.
  have Hsf' : emb s *: map_poly emb f != 0 by rewrite scale_poly_eq0 (negbTE Hs').
  move: Hn2; rewrite !true_countsE // => -[E1 E2].
  by rewrite -!/(curve_points _) !points_split // E1 E2.
have [] := points_twist HoL Hs' (negbT E) Hf'; rewrite HL.
by move: (curve_points _) (curve_points _) (q ^ _)%N => a b c H _; lia.
Qed.

(** ** Histories *)
Lemma key_history factor c calls : curve_over g p r W c -> c_points c = [::] ->
  (2 * size (c_coeffs c) < W)%N -> squarefree (rhs c) -> factorisation (rhs c) (factor (c_coeffs c)) ->
  (forall call, List.In call calls -> valid_call g p r W call) ->
  exists c' n N, [/\ foldM (run_call W) c calls = Ok c',
    forall fuel, (N <= fuel)%N -> curve_key W fuel factor c' = Ok (base_key n (rhs c)),
    forall j, (j < n)%N -> (j.+1 * r)%N \in [seq call_exponent call | call <- calls] &
    (n.+1 * r)%N \notin [seq call_exponent call | call <- calls]].
Proof.
move=> Hc Hn HW Hsq Hfac Hv.
have [c1 [n [N [E Hm H1 H2 [Hs Ho]]]]] := offsets Hc Hn Hv.
have [c2 [E2 Hr _]] := ram_history Hc Hn HW Hsq Hfac Hv.
move: E2; rewrite E => -[E2]; subst c2.
exists c1, n, N; split=> // fuel Hf; rewrite /curve_key Hm // {1}/bind Hr; congr (Ok (_, _)).
apply: (@eq_from_nth _ 0); rewrite ?size_mkseq // Hs => j Hj; rewrite nth_mkseq //.
have [L [emb HL]] := extension_exists F (ltn0Sn j).
rewrite (Ho _ _ emb Hj HL) (base_offsetE emb _ (rhs_neq0 Hc) HL) ?HL //.
by case: Hc => -[].
Qed.

Lemma twist_history factor c d (s : F) calls calls' :
  curve_over g p r W c -> curve_over g p r W d -> c_points c = [::] -> c_points d = [::] ->
  (2 * size (c_coeffs c) < W)%N -> (2 * size (c_coeffs d) < W)%N ->
  (forall y, y ^+ 2 != s) -> rhs d = s *: rhs c -> squarefree (rhs c) -> 
  factorisation (rhs c) (factor (c_coeffs c)) -> factorisation (rhs d) (factor (c_coeffs d)) ->
  (forall call, List.In call (calls ++ calls') -> valid_call g p r W call) ->
  [seq call_exponent call | call <- calls] =i [seq call_exponent call | call <- calls'] ->
  exists c' d' N, [/\ foldM (run_call W) c calls = Ok c', foldM (run_call W) d calls' = Ok d' &
    forall fuel, (N <= fuel)%N -> exists k,
      curve_key W fuel factor c' = Ok k /\ curve_key W fuel factor d' = Ok (twist k)].
Proof.
move=> Hc Hd Hcn Hdn HcW HdW Hs Ed Hsq Hfc Hfd Hv He.
have Hs0 : s != 0 by apply: contraNneq (Hs 0) => ->; rewrite expr0n.
have Hsn : ~~ sqnz s by rewrite negb_and negbK; apply/orP; right; apply/existsPn => y; exact: Hs.
have [|c' [n [N [E1 K1 P1 Q1]]]] := key_history Hc Hcn HcW Hsq Hfc (calls := calls).
  by move=> call H; apply: Hv; apply/List.in_or_app; left.
have Hsq' : squarefree (rhs d).
  rewrite Ed; move: Hsq; rewrite /squarefree size_scale //.
  by congr is_true; apply: eq_all => e; apply: eq_all => h; rewrite dvdpZr.
have [|d' [m [M [E2 K2 P2 Q2]]]] := key_history Hd Hdn HdW Hsq' Hfd (calls := calls').
  by move=> call H; apply: Hv; apply/List.in_or_app; right.
have Enm : n = m.
  case: (ltngtP n m) => // H; first by have := P2 _ H; rewrite -He (negbTE Q1).
  by have := P1 _ H; rewrite He (negbTE Q2).
exists c', d', (maxn N M); split=> // fuel; rewrite geq_max => /andP[HN HM].
exists (base_key n (rhs c)); rewrite K1 // K2 // -Enm Ed base_key_twist //; last exact: (rhs_neq0 Hc).
by case: Hc => -[].
Qed.
End Keys.
