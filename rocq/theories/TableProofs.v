(** The checks which every table of results passes. *)
Set Warnings "-notation-overridden,-ambiguous-paths".
From mathcomp Require Import all_ssreflect ssralg ssrnum ssrint poly polydiv finalg zify.
From Verif Require Import Res FinField TablesSpec CurveSpec PointSpec RamSpec OMap OMapFacts OMapPerm Store StoreSpec StoreProofs Text Files FilesSpec
  Pool Standalone Mpi Config Worker WorkerSpec Main MainSpec MainProofs FieldExt PointCount PointMath PolyOrbit Squarefree Irred Ramify
  TwistProofs KeyMath EndToEnd TableSpec.

Set Implicit Arguments.
Unset Strict Implicit.
Unset Printing Implicit Defensive.
Import GRing.Theory.
Local Open Scope ring_scope.

(** Towers exist, and the key does not depend on them. *)
Lemma tower_exists (F : finFieldType) :
  exists (L : nat -> finFieldType) (emb : forall j, {rmorphism F -> L j}), tower F L.
Proof.
pose e j := extension_sig F (ltn0Sn j).
by exists (fun j => projT1 (e j)), (fun j => sval (projT2 (e j))) => j; exact: (proj2_sig (projT2 (e j))).
Qed.

Lemma point_key_indep (F : finFieldType) (L L' : nat -> finFieldType) (emb : forall j, {rmorphism F -> L j})
    (emb' : forall j, {rmorphism F -> L' j}) n f :
  odd #|F| -> tower F L -> tower F L' -> f != 0 -> point_key emb n f = point_key emb' n f.
Proof. by move=> Ho H H' Hf; rewrite !point_keyE. Qed.

Lemma well_defined (F : finFieldType) :
  (exists (L : nat -> finFieldType) (emb : forall j, {rmorphism F -> L j}), tower F L) /\
  (odd #|F| -> forall (L L' : nat -> finFieldType) (emb : forall j, {rmorphism F -> L j})
     (emb' : forall j, {rmorphism F -> L' j}), tower F L -> tower F L' ->
     forall n (f : {poly F}), f != 0%R -> point_key emb n f = point_key emb' n f).
Proof.
split=> [|Ho L L' emb emb' HL HL' n f Hf]; [exact: tower_exists|exact: point_key_indep].
Qed.

Lemma offset_parity (Q x y : nat) : odd Q -> odd (absz ((Q + 1)%:Z - (2 * x + y)%:Z)) = odd y.
Proof. lia. Qed.

Section Table.
Variables (F : finFieldType) (genus n : nat) (marked : bool) (T : store).
Local Notation q := #|F|.
Local Notation bf := (brute_force (F := F) (base_key n) genus marked).
Hypothesis Ho : odd q.
Hypothesis Hgenus : (0 < genus)%N.
Hypothesis HT : is_map T.
Hypothesis HE : forall k, st_find T k = if bf k == 0%N then None else Some (bf k).

Let ps := flatten [seq [seq f <- polys F d | squarefree f] | d <- requested_degrees genus marked].

Lemma mem_ps f : (f \in ps) = [&& (0 < size f)%N, (size f).-1 \in requested_degrees genus marked & squarefree f].
Proof.
apply/flatten_mapP/and3P => [[d Hd]|[H1 H2 H3]].
  by rewrite mem_filter mem_polys => /andP[H /eqP E]; split; rewrite ?E.
by exists (size f).-1 => //; rewrite mem_filter H3 mem_polys prednK //=.
Qed.

Lemma bf_count k : bf k = count (fun f => base_key n f == k) ps.
Proof.
rewrite /brute_force count_flatten sumnE !big_map; apply: eq_bigr => d _.
by rewrite count_filter; apply: eq_count => f /=; rewrite andbC.
Qed.

Lemma T_find k m : ((k, m) \in T) = (st_find T k == Some m).
Proof. exact: (om_find_in key_total). Qed.

Lemma T_uniq : uniq [seq kn.1 | kn <- T].
Proof. by have [H1 H2 _] := key_order; apply: (sorted_uniq H2). Qed.

Lemma T_count kn : kn \in T -> kn.2 = bf kn.1 /\ (0 < kn.2)%N.
Proof.
case: kn => k m; rewrite T_find HE /=; case: ifP => // H /eqP[<-]; by rewrite lt0n H.
Qed.

Lemma T_key f : f \in ps -> base_key n f \in [seq kn.1 | kn <- T].
Proof.
move=> Hf; have := HE (base_key n f); case: eqP => [E0|_ H].
  by have := bf_count (base_key n f); rewrite E0 => /esym/eqP; rewrite eqn0Ngt -has_count => /hasPn /(_ _ Hf); rewrite eqxx.
by apply/mapP; exists (base_key n f, bf (base_key n f)) => //; rewrite T_find H.
Qed.

Lemma T_inv kn : kn \in T -> exists2 f, f \in ps & base_key n f = kn.1.
Proof.
move=> /T_count[->]; rewrite bf_count -has_count => /hasP[f Hf /eqP <-]; by exists f.
Qed.

Lemma T_sum (h : key -> int) : \sum_(kn <- T) (kn.2)%:Z * h kn.1 = \sum_(f <- ps) h (base_key n f).
Proof.
have E kn : kn \in T -> (kn.2)%:Z * h kn.1 = \sum_(f <- ps | base_key n f == kn.1) h (base_key n f).
  move=> /T_count[-> _]; rewrite (eq_bigr (fun _ => h kn.1)); last by move=> f /eqP ->.
  by rewrite big_const_seq iter_addr_0 bf_count -mulr_natl natz.
rewrite big_seq (eq_bigr _ E) -big_seq (exchange_big_dep xpredT) //= [LHS]big_seq [RHS]big_seq.
apply: eq_bigr => f Hf; rewrite big_const_seq iter_addr_0.
have := count_uniq_mem (base_key n f) T_uniq; rewrite (T_key Hf) count_map => E1.
rewrite (_ : count _ _ = 1%N) ?mulr1n // -[RHS]E1.
by apply: eq_count => kn /=; rewrite eq_sym.
Qed.

(** ** The total *)
Lemma size_ps : size ps = grand_total q genus marked.
Proof.
have Hs d : (1 < d)%N -> size [seq f <- polys F d | squarefree f] = squarefree_number q d.
  by case: d => [|[|d]] // _; rewrite -/(sqf F d.+2) size_sqf.
rewrite size_flatten /shape sumnE !big_map /grand_total /requested_degrees.
by case: marked; rewrite !big_cons big_nil !Hs ?addn0 //; lia.
Qed.

Lemma T_total : (\sum_(kn <- T) kn.2)%N = grand_total q genus marked.
Proof.
have := T_sum (fun _ => 1); rewrite big_const_seq iter_addr_0 count_predT size_ps => E.
apply/eqP; rewrite -eqz_nat; apply/eqP; rewrite -[RHS]natz -E.
by rewrite (big_morph Posz PoszD (erefl _)); apply: eq_bigr => kn _; rewrite mulr1.
Qed.

(** ** Twists *)
Lemma ps_neq0 f : f \in ps -> f != 0.
Proof. by rewrite mem_ps => /and3P[H _ _]; rewrite -size_poly_gt0. Qed.

Lemma ps_scale s : s != 0 -> perm_eq [seq s *: f | f <- ps] ps.
Proof.
move=> Hs; have Hu : uniq ps.
  have Hd d : uniq [seq f <- polys F d | squarefree f] by rewrite filter_uniq // polys_uniq.
  rewrite /ps /requested_degrees; case: marked; rewrite [uniq _]/= ?cats0 ?cat_uniq ?Hd // andbT.
  apply/hasPn => f; rewrite mem_filter mem_polys => /andP[_ /eqP Es]; apply/negP; rewrite inE.
  by rewrite mem_filter mem_polys Es => /andP[_]; lia.
apply: uniq_perm => //; first by rewrite map_inj_uniq //; exact: (scalerI Hs).
have Hm c f : c != 0 -> f \in ps -> c *: f \in ps.
  by move=> Hc Hf; have := Hf; rewrite !mem_ps size_scale // squarefree_mulr // ps_neq0.
move=> f; apply/mapP/idP => [[h Hh ->]|Hf]; first exact: Hm.
by exists (s^-1 *: f); [apply: Hm; rewrite ?invr_neq0|rewrite scalerA mulfV // scale1r].
Qed.

Lemma T_twist k : st_find T (twist k) = st_find T k.
Proof.
rewrite !HE; have -> : bf (twist k) = bf k; last by [].
have [s [Hs Hn]] := @exists_nonsquare F Ho.
rewrite !bf_count -(permP (ps_scale Hs)) count_map; apply: eq_in_count => f Hf /=.
by rewrite (base_key_twist n Ho Hs Hn (ps_neq0 Hf)) (inj_eq (can_inj twistK)).
Qed.

Lemma T_cancel j : (j < n)%N -> odd j.+1 -> \sum_(kn <- T) (kn.2)%:Z * nth 0 kn.1.2 j = 0.
Proof.
move=> Hj Hoj; rewrite (T_sum (fun k => nth 0 k.2 j)).
have [s [Hs Hn]] := @exists_nonsquare F Ho.
set X := \sum_(f <- ps) _; suff : X = - X by lia.
rewrite {1}/X -(perm_big _ (ps_scale Hs)) big_map /X -sumrN [LHS]big_seq [RHS]big_seq; apply: eq_bigr => f Hf.
rewrite (base_key_twist n Ho Hs Hn (ps_neq0 Hf)) /base_key /twist /= twist_mkseq !nth_mkseq //.
by move: Hoj => /= /negbTE->.
Qed.

(** ** Rows *)
Lemma T_rows kn : kn \in T -> (0 < kn.2)%N /\ row_check q genus marked n kn.1.
Proof.
move=> Hk; have [_ H0] := T_count Hk; split=> //; have [f Hf <-] := T_inv Hk.
have := Hf; rewrite mem_ps => /and3P[Hs Hd Hsq]; have Hf0 := ps_neq0 Hf.
have Hp : perm_eq (ramification f) ((if odd (size f).-1 then [:: 1%N] else [::]) ++ [seq (size (P : {poly F})).-1 | P <- prime_divisors f]).
  by rewrite ramification_sort perm_sort.
split.
- rewrite /base_key /= sort_sorted; last by move=> x y; exact: leq_total.
  rewrite andTb (perm_all _ Hp) all_cat; apply/andP; split; first by case: odd.
  apply/allP => e /mapP[P]; rewrite mem_prime_divisors // => /and3P[_ /andP[H _] _] ->.
  by rewrite /= -subn1 subn_gt0.
- rewrite /= (perm_sumn Hp) sumD //; move: Hd; rewrite /requested_degrees.
  by case: marked; rewrite !inE; [move/eqP->|case/orP=> /eqP->]; lia.
- move: Hd; rewrite /requested_degrees => /[swap] ->; rewrite inE => /eqP E.
  by rewrite (perm_mem Hp) E mem_cat (_ : odd _ = true) ?inE //; lia.
- by rewrite size_mkseq.
move=> j Hj; rewrite nth_mkseq //; split.
  have [L [emb HL]] := extension_exists F (ltn0Sn j).
  have HoL : odd #|L| by rewrite HL oddX Ho orbT.
  have HfL : map_poly emb f != 0 by rewrite map_poly_eq0.
  have [s [Hs0 Hsn]] := @exists_nonsquare L HoL.
  have [Hpt _] := points_twist HoL Hs0 Hsn HfL.
  rewrite (base_offsetE emb Ho Hf0 HL); move: Hpt; rewrite HL.
  move: (curve_points _) (curve_points _) (q ^ j.+1)%N => x y Q; lia.
have HQ : odd (q ^ j.+1) by rewrite oddX Ho orbT.
have Hpe : perm_eq [seq e <- ramification f | (e %| j.+1)%N] _ := perm_filter _ Hp.
rewrite /base_offset (base_ram _ Hf0 Hsq) /= (perm_sumn Hpe) /base_counts /=.
exact: offset_parity.
Qed.

Lemma T_check : table_check q genus marked n T.
Proof. by split; [exact: T_total|exact: T_twist|exact: T_rows|exact: T_cancel]. Qed.
End Table.

(** ** Tables of the program *)
Lemma counted_checked (W M : nat) (flint : nat -> nat -> flint_field) (dir : seq char -> nat) (c : config) (fs : seq file) :
  admissible M c -> flint_fields flint c -> counted W M flint dir c fs -> checked M W dir c fs.
Proof.
move=> Ha Hff Hc d0 ids cuts d listing H1 H2 H3; have [T [R [N [K1 K2 K3]]]] := Hc _ _ _ _ _ H1 H2 H3.
exists T, R, N; split=> //; have Ho := odd_field Ha Hff; have [L [emb HL]] := tower_exists (field_of flint c).
have Eq : (g_prime c ^ g_exponent c)%N = #|field_of flint c| by case: Hff.
have Hg : (0 < g_genus c)%N by case: Ha => _ /and4P[].
by rewrite Eq; apply: T_check => // k; rewrite (K3 _ emb HL) brute_forceE.
Qed.

(** A test for the second check. *)
Lemma twist_test (T : store) : is_map T -> all (fun kn => (twist kn.1, kn.2) \in T) T ->
  forall k, st_find T (twist k) = st_find T k.
Proof.
move=> HT Ha k; have Hf k' m : ((k', m) \in T) = (st_find T k' == Some m) by exact: (om_find_in key_total).
have H k' m : st_find T k' = Some m -> st_find T (twist k') = Some m.
  by move=> E; apply/eqP; rewrite -Hf; apply: (allP Ha (k', m)); rewrite Hf E.
case E: (st_find T k) => [m|]; first exact: H.
by case E': (st_find T (twist k)) => [m|] //; have := H _ _ E'; rewrite twistK E.
Qed.

Section Program.
Variables (W S M : nat).
Variable flint : nat -> nat -> flint_field.
Variable is_squarefree : forall p r, seq (ff_field (flint p r)) -> bool.
Variable factor : nat -> nat -> seq nat -> seq (nat * nat).
Hypothesis HMW : (2 * M <= W)%N.
Hypothesis HWS : (W <= S)%N.
Variable dir : seq char -> nat.

Lemma program_checked w fuel o cs calls e : main M W dir w fuel o = Ok (Ran cs calls e) ->
  proper W S M is_squarefree factor dir fuel cs ->
  forall fs, earlier W S M is_squarefree factor dir cs fs ->
  let contrib := contribution W S is_squarefree factor fuel cs in
  (forall kinds acts s, run contrib (start kinds fs calls) acts = Ok s -> through e s ->
    forall i, promised e cs i -> sound M is_squarefree factor (nth c0 cs i) ->
      checked M W dir (nth c0 cs i) (files s)) /\
  (forall kinds acts s, (0 < size kinds)%N -> mrun contrib (mstart kinds fs calls) acts = Ok s -> mthrough e s ->
    forall i, promised e cs i -> sound M is_squarefree factor (nth c0 cs i) ->
      checked M W dir (nth c0 cs i) (m_files s)).
Proof.
move=> Hm Hp fs Hf; have [H1 H2] := results HMW HWS Hm Hp Hf.
split=> [kinds acts s Hr Ht i Hi Hs|kinds acts s Hk Hr Ht i Hi Hs]; case: (Hs) => Ha Hff _;
  apply: (counted_checked Ha Hff).
  exact: (H1 _ _ _ Hr Ht i Hi Hs).
exact: (H2 _ _ _ Hk Hr Ht i Hi Hs).
Qed.
End Program.
