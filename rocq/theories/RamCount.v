(** The numbers of curves with given ramification in the tables of results. *)
Set Warnings "-notation-overridden,-ambiguous-paths".
From mathcomp Require Import all_ssreflect ssralg ssrnum ssrint poly polydiv finalg zify.
From Verif Require Import Res FinField TablesSpec CurveSpec PointSpec RamSpec OMap OMapFacts OMapPerm Store StoreSpec StoreProofs Text Files FilesSpec
  Pool Standalone Mpi Config Worker WorkerSpec Main MainSpec MainProofs FieldExt PointCount PointMath PolyOrbit Squarefree Irred Ramify
  TwistProofs KeyMath EndToEnd TableSpec TableProofs TidySpec TidyProofs Choices RamCountSpec.

Set Implicit Arguments.
Unset Strict Implicit.
Unset Printing Implicit Defensive.
Import GRing.Theory.

(** ** The numbers of closed points of the affine line *)
Lemma closed_points_unique q B N N' : closed_points q B N -> closed_points q B N' ->
  forall e, 0 < e <= B -> N e = N' e.
Proof.
move=> H H' e; have [m] := ubnP e; elim: m e => // m IH e Hm He.
have := H e He; rewrite -(H' e He) !(bigD1_seq e) ?divisors_uniq ?divisors_id //=; try by case/andP: He.
have -> : \sum_(i <- divisors e | i != e) i * N i = \sum_(i <- divisors e | i != e) i * N' i.
  rewrite big_seq_cond [RHS]big_seq_cond; apply: eq_bigr => d /andP[Hd Hde]; case/andP: (He) => H0 HB.
  have Hdv : d %| e by rewrite dvdn_divisors.
  have Hle := dvdn_leq H0 Hdv; have Hd0 := dvdn_gt0 H0 Hdv.
  by rewrite IH //; move: Hde => /eqP; lia.
by move=> /eqP; rewrite eqn_add2r eqn_pmul2l; [move/eqP|case/andP: He].
Qed.

Local Open Scope ring_scope.

Lemma closed_points_irrs (F : finFieldType) B : closed_points #|F| B (fun e => size (irrs F e)).
Proof. by move=> e /andP[He _]; exact: irrs_sum. Qed.

Lemma irrs_count (F : finFieldType) e :
  size (irrs F e) = seq.count (fun P : {poly F} => (P \is monic) && irreducible P) (polys F e).
Proof.
rewrite -size_filter; apply: perm_size; apply: uniq_perm; rewrite ?irrs_uniq //; first by apply: filter_uniq; exact: polys_uniq.
by move=> P; rewrite mem_filter mem_monics [RHS]mem_filter mem_polys andbA [irreducible P && _]andbC.
Qed.

Lemma closed_pointsE (F : finFieldType) B N :
  closed_points #|F| B N <->
  forall e, (0 < e <= B)%N -> N e = seq.count (fun P : {poly F} => (P \is monic) && irreducible P) (polys F e).
Proof.
split=> [H e He|H e He].
  by rewrite -irrs_count; apply: (closed_points_unique H (@closed_points_irrs F B)).
rewrite -(closed_points_irrs F He); apply: eq_big_seq => d Hd; rewrite irrs_count H //.
by case/andP: He => H0 HB; rewrite -dvdn_divisors // in Hd; rewrite (dvdn_gt0 H0 Hd) (leq_trans (dvdn_leq H0 Hd)).
Qed.

(** ** The table *)
Section Table.
Variables (F : finFieldType) (genus n : nat) (marked : bool) (T : store).
Local Notation q := #|F|.
Local Notation bf := (brute_force (F := F) (base_key n) genus marked).
Hypothesis Ho : odd q.
Hypothesis Hgenus : (0 < genus)%N.
Hypothesis HT : is_map T.
Hypothesis HE : forall k, st_find T k = if bf k == 0%N then None else Some (bf k).
Local Notation degs f := [seq (size (P : {poly F})).-1 | P <- prime_divisors f].

Lemma T_count_rows (a : pred key) :
  (\sum_(kn <- T | a kn.1) kn.2 =
   \sum_(d <- requested_degrees genus marked) seq.count (fun f => a (base_key n f)) (sqf F d))%N.
Proof.
have := T_sum HT HE (fun k => (a k)%:R).
rewrite big_flatten big_map /= => E; apply/eqP; rewrite -eqz_nat; apply/eqP.
rewrite (big_morph Posz PoszD (erefl _)) (big_morph Posz PoszD (erefl _)) big_mkcond /=.
rewrite [LHS](eq_bigr (fun kn => (kn.2)%:Z * (a kn.1)%:R)); last first.
  by move=> kn _; case: (a _); rewrite ?mulr1 ?mulr0.
rewrite E; apply: eq_bigr => d _; rewrite -sum1_count (big_morph Posz PoszD (erefl _)) [RHS]big_mkcond /=.
by apply: eq_bigr => f _; case: (a _).
Qed.

Lemma T_ramification : ramification_check q genus marked T.
Proof.
move=> N HN r Hso Hpos Hsum Hm; rewrite (T_count_rows (fun k => k.1 == r)) /=.
set B := (2 * genus + 2)%N.
have HNe := closed_points_unique HN (closed_points_irrs F (B := B)).
have Er (f : {poly F}) : (ramification f == r) = perm_eq ((if odd (size f).-1 then [:: 1%N] else [::]) ++ degs f) r.
  apply/eqP/idP => [<-|Hp]; first by rewrite perm_sym perm_sort.
  apply: (sorted_eq leq_trans anti_leq) => //; first by apply: sort_sorted; exact: leq_total.
  by rewrite perm_sort.
have E2 : seq.count (fun f => ramification f == r) (sqf F (2 * genus + 2)) = (q.-1 * binomials B (fun e => size (irrs F e)) r)%N.
  rewrite -(@count_pattern F r Hpos B) ?Hsum //; apply: eq_in_count => f; rewrite mem_sqf => /andP[_ /eqP Hs].
  by rewrite Er Hs /= (_ : odd _ = false) //; lia.
have E1 : seq.count (fun f => ramification f == r) (sqf F (2 * genus + 1)) =
    (if 1%N \in r then q.-1 * binomials B (fun e => size (irrs F e)) (rem 1%N r) else 0)%N.
  have Eo f : f \in sqf F (2 * genus + 1) -> (ramification f == r) = perm_eq (1%N :: degs f) r.
    by rewrite mem_sqf => /andP[_ /eqP Hs]; rewrite Er Hs /= (_ : odd _ = true) //; lia.
  rewrite (eq_in_count Eo); case: ifP => H1.
    have Hrp : all (ltn 0%N) (rem 1%N r) by apply/allP => e /mem_rem He; apply: (allP Hpos).
    have Hs1 : sumn (rem 1%N r) = (2 * genus + 1)%N by have := perm_sumn (perm_to_rem H1); rewrite Hsum /=; lia.
    rewrite -(@count_pattern F (rem 1%N r) Hrp B) ?Hs1 //; last by rewrite /B; lia.
    by apply: eq_count => f; rewrite (permPr (perm_to_rem H1)) perm_cons.
  apply/eqP; rewrite -leqn0 leqNgt -has_count; apply/hasPn => f _; apply/negP => H.
  by move: H1; rewrite -(perm_mem H) inE eqxx.
rewrite /ramified_number -/B /requested_degrees; move: Hm; case: marked => Hm; rewrite !big_cons big_nil E1 ?E2 addn0.
  by rewrite Hm //; congr (_ * _)%N; apply: eq_big_seq => e; rewrite mem_iota => He; rewrite HNe //; lia.
have -> : (\prod_(e <- iota 1 B) 'C(N e + (e == 1), count_mem e r) = binomials B (fun e => size (irrs F e) + (e == 1)) r)%N.
  by apply: eq_big_seq => e; rewrite mem_iota => He; rewrite HNe //; lia.
rewrite binomials_step ?mulnDr; last by rewrite /B; lia.
by rewrite addnC; congr (_ + _)%N; case: ifP; rewrite ?muln0.
Qed.
End Table.

(** ** Tables of the program *)
Lemma counted_ramification (W M : nat) (flint : nat -> nat -> flint_field) (dir : seq char -> nat) (c : config) (fs : seq file) :
  admissible M c -> flint_fields flint c -> counted W M flint dir c fs -> ramification_checked M W dir c fs.
Proof.
move=> Ha Hff Hc d0 ids cuts d listing H1 H2 H3; have [T [R [N [K1 K2 K3]]]] := Hc _ _ _ _ _ H1 H2 H3.
exists T, R, N; split=> //; have Ho := odd_field Ha Hff; have [L [emb HL]] := tower_exists (field_of flint c).
have Eq : (g_prime c ^ g_exponent c)%N = #|field_of flint c| by case: Hff.
have Hg : (0 < g_genus c)%N by case: Ha => _ /and4P[].
by rewrite Eq; apply: (T_ramification (n := g_count c)) => // k; rewrite (K3 _ emb HL) brute_forceE.
Qed.

Section Program.
Variables (W S M : nat).
Variable flint : nat -> nat -> flint_field.
Variable is_squarefree : forall p r, seq (ff_field (flint p r)) -> bool.
Variable factor : nat -> nat -> seq nat -> seq (nat * nat).
Hypothesis HMW : (2 * M <= W)%N.
Hypothesis HWS : (W <= S)%N.
Variable dir : seq char -> nat.

Lemma program_ramification w fuel o cs calls e : main M W dir w fuel o = Ok (Ran cs calls e) ->
  proper W S M is_squarefree factor dir fuel cs ->
  forall fs, tidied W S M is_squarefree factor dir cs fs ->
  let contrib := contribution W S is_squarefree factor fuel cs in
  (forall kinds acts s, run contrib (start kinds fs calls) acts = Ok s -> through e s ->
    forall i, promised e cs i -> sound M is_squarefree factor (nth c0 cs i) ->
      ramification_checked M W dir (nth c0 cs i) (files s)) /\
  (forall kinds acts s, (0 < size kinds)%N -> mrun contrib (mstart kinds fs calls) acts = Ok s -> mthrough e s ->
    forall i, promised e cs i -> sound M is_squarefree factor (nth c0 cs i) ->
      ramification_checked M W dir (nth c0 cs i) (m_files s)).
Proof.
move=> Hm Hp fs Hf; have [H1 H2] := tidy_results HMW HWS Hm Hp Hf.
split=> [kinds acts s Hr Ht i Hi Hs|kinds acts s Hk Hr Ht i Hi Hs]; case: (Hs) => Ha Hff _;
  apply: (counted_ramification Ha Hff).
  exact: (H1 _ _ _ Hr Ht i Hi Hs).
exact: (H2 _ _ _ Hk Hr Ht i Hi Hs).
Qed.
End Program.
