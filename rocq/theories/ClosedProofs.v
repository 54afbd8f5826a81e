(** The numbers of points in the rows of the tables of results. *)
Set Warnings "-notation-overridden,-ambiguous-paths".
From mathcomp Require Import all_ssreflect ssralg ssrnum ssrint poly polydiv finalg zify.
From Verif Require Import Res FinField TablesSpec CurveSpec PointSpec RamSpec OMap OMapFacts OMapPerm Store StoreSpec StoreProofs Text Files FilesSpec
  Pool Standalone Mpi Config Worker WorkerSpec Main MainSpec MainProofs FieldExt PointCount PointMath PolyOrbit Squarefree Irred Ramify
  TwistProofs KeyMath EndToEnd TableSpec TableProofs TidySpec TidyProofs Closed ClosedSpec.

Set Implicit Arguments.
Unset Strict Implicit.
Unset Printing Implicit Defensive.
Import GRing.Theory.
Local Open Scope ring_scope.

Section Table.
Variables (F : finFieldType) (genus n : nat) (marked : bool) (T : store).
Local Notation q := #|F|.
Local Notation bf := (brute_force (F := F) (base_key n) genus marked).
Hypothesis Ho : odd q.
Hypothesis HT : is_map T.
Hypothesis HE : forall k, st_find T k = if bf k == 0%N then None else Some (bf k).

Lemma T_closed kn : kn \in T -> closed_check q n kn.1.
Proof.
move=> Hk; have [f Hf <-] := T_inv HT HE Hk.
have := Hf; rewrite mem_ps => /and3P[Hs _ Hsq]; have Hf0 := ps_neq0 Hf.
have Hp : perm_eq (ramification f) ((if odd (size f).-1 then [:: 1%N] else [::]) ++ [seq (size (P : {poly F})).-1 | P <- prime_divisors f]).
  by rewrite ramification_sort perm_sort.
have [U HU] := closed_unramified n Ho Hf0; exists U => j Hj; have := Hj => /andP[Hj0 Hjn].
rewrite -HU // /row_points nth_mkseq prednK // /base_offset.
have Hpe : perm_eq [seq e <- ramification f | (e %| j)%N] _ := perm_filter _ Hp.
rewrite (perm_sumn Hpe) (base_ram _ Hf0 Hsq).
move: (base_counts _ _).1 (sumn _) (q ^ j + 1)%N => x y z; lia.
Qed.
End Table.

(** ** Tables of the program *)
Lemma counted_closed (W M : nat) (flint : nat -> nat -> flint_field) (dir : seq char -> nat) (c : config) (fs : seq file) :
  admissible M c -> flint_fields flint c -> counted W M flint dir c fs -> closed_checked M W dir c fs.
Proof.
move=> Ha Hff Hc d0 ids cuts d listing H1 H2 H3; have [T [R [N [K1 K2 K3]]]] := Hc _ _ _ _ _ H1 H2 H3.
exists T, R, N; split=> //; have Ho := odd_field Ha Hff; have [L [emb HL]] := tower_exists (field_of flint c).
have Eq : (g_prime c ^ g_exponent c)%N = #|field_of flint c| by case: Hff.
move=> kn; rewrite Eq; apply: (T_closed (genus := g_genus c) (marked := g_marked c) Ho K1) => k.
by rewrite (K3 _ emb HL) brute_forceE.
Qed.

Section Program.
Variables (W S M : nat).
Variable flint : nat -> nat -> flint_field.
Variable is_squarefree : forall p r, seq (ff_field (flint p r)) -> bool.
Variable factor : nat -> nat -> seq nat -> seq (nat * nat).
Hypothesis HMW : (2 * M <= W)%N.
Hypothesis HWS : (W <= S)%N.
Variable dir : seq char -> nat.

Lemma program_closed w fuel o cs calls e : main M W dir w fuel o = Ok (Ran cs calls e) ->
  proper W S M is_squarefree factor dir fuel cs ->
  forall fs, tidied W S M is_squarefree factor dir cs fs ->
  let contrib := contribution W S is_squarefree factor fuel cs in
  (forall kinds acts s, run contrib (start kinds fs calls) acts = Ok s -> through e s ->
    forall i, promised e cs i -> sound M is_squarefree factor (nth c0 cs i) ->
      closed_checked M W dir (nth c0 cs i) (files s)) /\
  (forall kinds acts s, (0 < size kinds)%N -> mrun contrib (mstart kinds fs calls) acts = Ok s -> mthrough e s ->
    forall i, promised e cs i -> sound M is_squarefree factor (nth c0 cs i) ->
      closed_checked M W dir (nth c0 cs i) (m_files s)).
Proof.
move=> Hm Hp fs Hf; have [H1 H2] := tidy_results HMW HWS Hm Hp Hf.
split=> [kinds acts s Hr Ht i Hi Hs|kinds acts s Hk Hr Ht i Hi Hs]; case: (Hs) => Ha Hff _;
  apply: (counted_closed Ha Hff).
  exact: (H1 _ _ _ Hr Ht i Hi Hs).
exact: (H2 _ _ _ Hk Hr Ht i Hi Hs).
Qed.
End Program.

(** ** A test: the numbers of closed points, one degree after the other, and whether they fit *)
Definition closed_part (us : seq nat) (k : key) (j : nat) : nat :=
  (foldr (fun e m => e * nth 0%N us e.-1 + m) 0 (divisors j) + sumn [seq e <- k.1 | (e %| j)%N])%N.
Definition closed_numbers (q : nat) (k : key) (n : nat) : seq nat :=
  foldl (fun us j => rcons us (absz (row_points q k j - (closed_part us k j)%:Z) %/ j)%N) [::] (iota 1 n).
Definition closed_test (q n : nat) (k : key) : bool :=
  all (fun j => row_points q k j == (closed_part (closed_numbers q k n) k j)%:Z) (iota 1 n).

Lemma closed_testP q n k : closed_test q n k -> closed_check q n k.
Proof.
move=> /allP H; exists (fun e => nth 0%N (closed_numbers q k n) e.-1) => j Hj.
have /eqP-> : row_points q k j == (closed_part (closed_numbers q k n) k j)%:Z by apply: H; rewrite mem_iota; slia.
rewrite /closed_part; congr Posz; congr (_ + _)%N.
by elim: (divisors j) => [|e l IH]; rewrite ?big_nil ?big_cons //= IH.
Qed.
