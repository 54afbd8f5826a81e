(** The sums of the offsets in the tables of results. *)
Set Warnings "-notation-overridden,-ambiguous-paths".
From mathcomp Require Import all_ssreflect ssralg ssrnum ssrint poly polydiv finalg zify.
From Verif Require Import Res FinField TablesSpec CurveSpec PointSpec RamSpec OMap OMapFacts OMapPerm Store StoreSpec StoreProofs Text Files FilesSpec
  Pool Standalone Mpi Config Worker WorkerSpec Main MainSpec MainProofs FieldExt PointCount PointMath PolyOrbit Squarefree Irred Ramify
  TwistProofs KeyMath EndToEnd TableSpec TableProofs TidySpec TidyProofs Moments Moments2 MomentSpec.

Set Implicit Arguments.
Unset Strict Implicit.
Unset Printing Implicit Defensive.
Import GRing.Theory.
Local Open Scope ring_scope.

Section Table.
Variables (F : finFieldType) (genus n : nat) (marked : bool) (T : store).
Local Notation q := #|F|.
Local Notation bf := (brute_force (F := F) (base_key n) genus marked).
Hypothesis Ho : odd q.
Hypothesis HT : is_map T.
Hypothesis HE : forall k, st_find T k = if bf k == 0%N then None else Some (bf k).

Lemma total_ofE (h : seq int -> int) :
  total_of h T = \sum_(d <- requested_degrees genus marked) \sum_(f <- sqf F d) h (mkseq (fun j => base_offset f j.+1) n).
Proof. by rewrite /total_of (T_sum HT HE (fun k => h k.2)) big_flatten big_map. Qed.

Lemma T_moments : moments_check q genus marked n T.
Proof.
have E1 : ((2 * genus + 1)%N = (2 * genus).+1) by rewrite addn1.
have E2 : ((2 * genus + 2)%N = (2 * genus).+2) by rewrite addn2.
split=> Hn; rewrite /first_moment_check /second_moment_check total_ofE /requested_degrees E1 E2.
  have E d : \sum_(f <- sqf F d) nth 0 (mkseq (fun j => base_offset f j.+1) n) 0 ^+ 2 = \sum_(f <- sqf F d) base_offset f 1 ^+ 2.
    by apply: eq_bigr => f _; rewrite nth_mkseq.
  by case: marked; rewrite !big_cons big_nil addr0 !E; [exact: moment_odd|exact: moment_both].
have E d : \sum_(f <- sqf F d) nth 0 (mkseq (fun j => base_offset f j.+1) n) 1 = \sum_(f <- sqf F d) base_offset f 2.
  by apply: eq_bigr => f _; rewrite nth_mkseq.
by case: marked; rewrite !big_cons big_nil addr0 !E; [exact: second_odd|exact: second_both].
Qed.
End Table.

(** ** Tables of the program *)
Lemma counted_moments (W M : nat) (flint : nat -> nat -> flint_field) (dir : seq char -> nat) (c : config) (fs : seq file) :
  admissible M c -> flint_fields flint c -> counted W M flint dir c fs -> moments_checked M W dir c fs.
Proof.
move=> Ha Hff Hc d0 ids cuts d listing H1 H2 H3; have [T [R [N [K1 K2 K3]]]] := Hc _ _ _ _ _ H1 H2 H3.
exists T, R, N; split=> //; have Ho := odd_field Ha Hff; have [L [emb HL]] := tower_exists (field_of flint c).
have Eq : (g_prime c ^ g_exponent c)%N = #|field_of flint c| by case: Hff.
by rewrite Eq; apply: T_moments => // k; rewrite (K3 _ emb HL) brute_forceE.
Qed.

Section Program.
Variables (W S M : nat).
Variable flint : nat -> nat -> flint_field.
Variable is_squarefree : forall p r, seq (ff_field (flint p r)) -> bool.
Variable factor : nat -> nat -> seq nat -> seq (nat * nat).
Hypothesis HMW : (2 * M <= W)%N.
Hypothesis HWS : (W <= S)%N.
Variable dir : seq char -> nat.

Lemma program_moments w fuel o cs calls e : main M W dir w fuel o = Ok (Ran cs calls e) ->
  proper W S M is_squarefree factor dir fuel cs ->
  forall fs, tidied W S M is_squarefree factor dir cs fs ->
  let contrib := contribution W S is_squarefree factor fuel cs in
  (forall kinds acts s, run contrib (start kinds fs calls) acts = Ok s -> through e s ->
    forall i, promised e cs i -> sound M is_squarefree factor (nth c0 cs i) ->
      moments_checked M W dir (nth c0 cs i) (files s)) /\
  (forall kinds acts s, (0 < size kinds)%N -> mrun contrib (mstart kinds fs calls) acts = Ok s -> mthrough e s ->
    forall i, promised e cs i -> sound M is_squarefree factor (nth c0 cs i) ->
      moments_checked M W dir (nth c0 cs i) (m_files s)).
Proof.
move=> Hm Hp fs Hf; have [H1 H2] := tidy_results HMW HWS Hm Hp Hf.
split=> [kinds acts s Hr Ht i Hi Hs|kinds acts s Hk Hr Ht i Hi Hs]; case: (Hs) => Ha Hff _;
  apply: (counted_moments Ha Hff).
  exact: (H1 _ _ _ Hr Ht i Hi Hs).
exact: (H2 _ _ _ Hk Hr Ht i Hi Hs).
Qed.
End Program.
