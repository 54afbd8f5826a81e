(** The normal forms enumerated by CurveIterator, stated once for coefficient vectors and for
    polynomials: [z i] says that coefficient [i] is zero, [o i] that it is one, [r n i] that
    it is one of the chosen representatives modulo [n]-th powers. *)
Set Warnings "-notation-overridden,-ambiguous-paths".
From mathcomp Require Import all_ssreflect zify.
From Verif Require Import Res ResFacts Tables BlockIter BlockSpec BlockIterProofs BlockTheorems CurveIter.

Set Implicit Arguments.
Unset Strict Implicit.
Unset Printing Implicit Defensive.

(** Exponents below [d] with non-zero coefficient, descending. *)
Definition supp (z : nat -> bool) (d : nat) : seq nat := [seq i <- rev (iota 0 d) | ~~ z i].

Definition nf (p d : nat) (z o : nat -> bool) (r : nat -> nat -> bool) : bool :=
  ~~ z d &&
  (if d < p then
     z d.-1 && match supp z d with
               | [::] => o d
               | [:: m] => o m
               | m :: l :: _ => o m && r (m - l) l
               end
   else if d %% p == 0 then
     o d && (if z d.-1 then z (d - 2) || r 2 (d - 2)
             else z (d - 2) && (z (d - 3) || r 3 (d - 3)))
   else [&& o d, z d.-1 & (z (d - 2) || r 2 (d - 2))]).

Lemma suppS z d : supp z d.+1 = if z d then supp z d else d :: supp z d.
Proof. by rewrite /supp -addn1 iotaD rev_cat /= add0n; case: (z d). Qed.

Lemma mem_supp z d i : (i \in supp z d) = (i < d) && ~~ z i.
Proof. by rewrite mem_filter mem_rev mem_iota andbC. Qed.

Lemma supp_cons (z : nat -> bool) d m : m < d -> (forall k, m < k < d -> z k) -> ~~ z m ->
  supp z d = m :: supp z m.
Proof.
elim: d => // d IH Hm Hk Hz; rewrite suppS.
case: (m =P d) => [->|Hne] in Hz Hm Hk *; first by rewrite (negbTE Hz).
rewrite Hk; last by lia.
by rewrite IH //; [lia|move=> k Hk'; apply: Hk; lia].
Qed.

Lemma supp_consP z d m s : supp z d = m :: s ->
  [/\ m < d, forall k, m < k < d -> z k, ~~ z m & s = supp z m].
Proof.
elim: d => // d IH; rewrite suppS; case: ifP => Hz.
  move/IH => [Hm Hk Hzm Es]; split=> //; first by lia.
  by move=> k Hk'; case: (k =P d) => [->//|Hne]; apply: Hk; lia.
by case=> <- <-; split; [lia|lia|rewrite Hz|].
Qed.

Lemma supp_nil (z : nat -> bool) d : (forall k, k < d -> z k) -> supp z d = [::].
Proof.
move=> H; apply/eqP; rewrite -(negbK (_ == _)) -has_filter; apply/hasPn => k.
by rewrite mem_rev mem_iota /= add0n => /H ->.
Qed.

Lemma supp_nilP z d : supp z d = [::] -> forall k, k < d -> z k.
Proof. by move=> E k Hk; apply/negPn/negP => Hz; have := mem_supp z d k; rewrite E Hk Hz. Qed.

Lemma eq_supp z z' d : (forall i, i < d -> z i = z' i) -> supp z d = supp z' d.
Proof. by move=> H; apply: eq_in_filter => i; rewrite mem_rev mem_iota /= add0n => /H ->. Qed.

Lemma eq_nf p d z z' o o' r r' : 2 < d ->
  (forall i, i <= d -> z i = z' i) -> (forall i, i <= d -> o i = o' i) ->
  (forall n i, i <= d -> r n i = r' n i) -> nf p d z o r = nf p d z' o' r'.
Proof.
move=> Hd Hz Ho Hr; rewrite /nf -(@eq_supp z z' d); last by move=> i Hi; apply: Hz; lia.
rewrite !Hz ?Ho ?Hr ?leq_subr ?leq_pred ?leqnn //.
case E: (supp z d) => [|m [|l s]] //.
  by have /supp_consP[Hm _ _ _] := E; rewrite Ho //; lia.
have /supp_consP[Hm _ _ E'] := E.
have /esym/supp_consP[Hl _ _ _] := E'.
by rewrite Ho ?Hr //; lia.
Qed.

(** Coefficient vectors: entries are indices, [q-1] standing for zero and [0] for one. *)
Definition zpos (q : nat) (v : seq nat) (i : nat) : bool := nth 0 v i == q.-1.
Definition opos (v : seq nat) (i : nat) : bool := nth 0 v i == 0.
Definition rpos (q : nat) (v : seq nat) (n i : nat) : bool := nth 0 v i < gcdn n q.-1.

Definition valid (q d : nat) (v : seq nat) : bool := (size v == d.+1) && all (fun x => x < q) v.

Definition nfpos (p q d : nat) (v : seq nat) : bool :=
  valid q d v && nf p d (zpos q v) (opos v) (rpos q v).

Lemma validP q d v : reflect (size v = d.+1 /\ forall i, i <= d -> nth 0 v i < q) (valid q d v).
Proof.
apply: (iffP andP) => [[/eqP Hs /(all_nthP 0) H]|[Hs H]].
  by split=> // i Hi; apply: H; rewrite Hs.
by split; [apply/eqP|apply/(all_nthP 0) => i; rewrite Hs => /H].
Qed.

(** ** Finite maps by lookup *)

Lemma sm_allP (V : eqType) (m : smap V) (P : nat * V -> bool) : sm_wf m ->
  reflect (forall k x, sm_find m k = Some x -> P (k, x)) (all P m).
Proof.
move=> Hw; apply: (iffP allP) => [H k x /sm_find_mem|H [k x] Hin]; first exact: H.
by apply: H; apply: sm_find_In => //; apply: sm_wf_uniq.
Qed.

Lemma sm_find_keyP (V : Type) (m : smap V) k : (k \in sm_keys m) = isSome (sm_find m k).
Proof. by rewrite sm_find_keys. Qed.

Lemma keys_partition (V1 V2 V3 : Type) (b : smap V1) (s : smap V2) (d : smap V3) len :
  sm_wf b -> sm_wf s -> sm_wf d ->
  (forall k, isSome (sm_find b k) + isSome (sm_find s k) + isSome (sm_find d k) = (k < len)) ->
  perm_eq (sm_keys b ++ sm_keys s ++ sm_keys d) (iota 0 len).
Proof.
move=> /sm_wf_uniq Hb /sm_wf_uniq Hs /sm_wf_uniq Hd H.
apply/allP => k _ /=; apply/eqP.
rewrite !count_cat !(count_uniq_mem _ Hb, count_uniq_mem _ Hs, count_uniq_mem _ Hd).
rewrite !sm_find_keyP count_uniq_mem ?iota_uniq // mem_iota /= add0n -H addnA; lia.
Qed.

Lemma mem_down hi lo k : (k \in down hi lo) = (lo <= k < hi).
Proof. by rewrite mem_rev mem_iota; lia. Qed.

Lemma find_set_zeros q m l : sm_wf m -> sm_wf (set_zeros q m l) /\
  forall k, sm_find (set_zeros q m l) k = if k \in l then Some [:: q.-1] else sm_find m k.
Proof.
move=> Hw; have := @foldl_sm_set nat (seq nat) id (fun=> [:: zero_index q]) l m Hw.
by rewrite map_id.
Qed.

Lemma find_set_complete q m l : sm_wf m -> sm_wf (set_complete q m l) /\
  forall k, sm_find (set_complete q m l) k = if k \in l then Some (0, q) else sm_find m k.
Proof.
move=> Hw; have := @foldl_sm_set nat (nat * nat) id (fun=> block_complete q) l m Hw.
by rewrite map_id.
Qed.

Lemma reps1 q : power_coset_representatives q 1 = [:: 0].
Proof. by rewrite /power_coset_representatives gcd1n. Qed.

Lemma gcd_le n q : 1 < q -> 0 < gcdn n q.-1 <= q.-1.
Proof.
move=> Hq; have Hp : 0 < q.-1 by lia.
by rewrite gcdn_gt0 Hp orbT dvdn_leq ?dvdn_gcdr.
Qed.

Lemma coset_products0 q n : 1 < q ->
  coset_products q [:: 0] (power_coset_representatives q n) =
    [:: (0, iota 0 (gcdn n q.-1))].
Proof.
move=> Hq; rewrite /coset_products /= /power_coset_representatives.
have /andP[H0 Hle] := gcd_le n Hq.
have -> : [seq reduce_index q (0 + b) | b <- iota 0 (gcdn n q.-1)] = iota 0 (gcdn n q.-1).
  rewrite -[RHS]map_id; apply/eq_in_map => b; rewrite mem_iota add0n => Hb.
  by rewrite /reduce_index modn_small //; lia.
by rewrite undup_id ?iota_uniq // sorted_sort ?iota_sorted //; apply: leq_trans.
Qed.

(** ** The arguments describe the normal forms *)

Section Args.
Variables (W q d psz : nat).
Hypothesis Hq : 1 < q.
Hypothesis HW : 2 * q <= W.
Hypothesis Hpsz : 0 < psz.
Hypothesis Hd : 2 < d.

Lemma values_iota n : values_ok W (iota 0 (gcdn n q.-1)).
Proof.
have /andP[H0 Hle] := gcd_le n Hq.
rewrite /values_ok iota_uniq size_iota -size_eq0 size_iota -lt0n H0 /=.
apply/andP; split; first by lia.
by apply/allP => x; rewrite mem_iota; lia.
Qed.

Lemma values_rcons n : values_ok W (rcons (iota 0 (gcdn n q.-1)) q.-1).
Proof.
have /andP[H0 Hle] := gcd_le n Hq.
rewrite /values_ok rcons_uniq iota_uniq size_rcons size_iota -size_eq0 size_rcons mem_iota /=.
apply/and3P; split; [by lia|by lia|].
by apply/allP => x; rewrite mem_rcons inE mem_iota; lia.
Qed.

Lemma values_single x : x < q -> values_ok W [:: x].
Proof. by move=> Hx; rewrite /values_ok /= andbT; lia. Qed.

Lemma block_fits u : 0 < u <= q -> 0 < u /\ u + minn psz (u - 0) <= W.
Proof. by lia. Qed.

Definition a_ok (a : bargs) : Prop :=
  let: (len, blocks, sets, deps) := a in args_ok W len blocks psz sets deps.
Definition a_desc (a : bargs) (v : seq nat) : bool :=
  let: (len, blocks, sets, deps) := a in described len blocks sets deps v.

(** args_two *)
Section Two.
Variables (ix jx1 : nat).
Hypothesis Hix : ix < d.
Hypothesis Hjx : jx1 <= ix.

Let a := args_two q d ix jx1.
Let blocks := a.1.1.2.
Let sets := a.1.2.
Let deps := a.2.

Lemma two_find :
  [/\ sm_wf blocks /\ (forall k, sm_find blocks k = if k < jx1.-1 then Some (0, q)
                               else if k == d then Some (0, q.-1) else None),
      sm_wf sets /\ (forall k, sm_find sets k =
         if jx1 <= k < ix then Some [:: q.-1] else if k == ix then Some [:: 0]
         else if ix < k < d then Some [:: q.-1] else None) &
      sm_wf deps /\ (forall k, sm_find deps k =
         if k.+1 == jx1 then Some (ix, [:: (0, iota 0 (gcdn (ix - k) q.-1))]) else None)].
Proof.
rewrite /blocks /sets /deps /a /args_two /=.
have Hs1 : sm_wf (sm_set ([::] : blk_arg) d (block_non_zero q)) by [].
have [Wb Fb] := find_set_complete q (down jx1.-1 0) Hs1.
have [W1 F1] := find_set_zeros q (down d ix.+1) (isT : sm_wf [::]).
have W2 := sm_wf_set ix (power_coset_representatives q 1) W1.
have [W3 F3] := find_set_zeros q (down ix jx1) W2.
have F3' k : sm_find (set_zeros q (sm_set (set_zeros q [::] (down d ix.+1)) ix
   (power_coset_representatives q 1)) (down ix jx1)) k =
   if jx1 <= k < ix then Some [:: q.-1] else if k == ix then Some [:: 0]
         else if ix < k < d then Some [:: q.-1] else None.
  by rewrite F3 mem_down sm_find_set // F1 mem_down reps1.
split; first by split=> // k; rewrite Fb mem_down /=.
  by [].
case: (jx1) Hjx F3' => [|jx] //= _ F3'.
split=> // k; rewrite eqSS; case: (k =P jx) => // ->.
rewrite /choices F3' ltnn andbF eqxx.
by rewrite coset_products0.
Qed.

Lemma two_args_ok : a_ok a.
Proof.
have [[Wb Fb] [Ws Fs] [Wd Fd]] := two_find.
change (args_ok W d.+1 blocks psz sets deps).
split=> //.
- apply: keys_partition => // k; rewrite Fb Fs Fd.
  by repeat case: ifP => /=; lia.
- move=> k l u /(sm_find_In (sm_wf_uniq Wb)); rewrite Fb.
  by case: ifP => _; [|case: ifP => _ //]; move=> [<- <-]; apply: block_fits; lia.
split.
  move=> k s /(sm_find_In (sm_wf_uniq Ws)); rewrite Fs.
  case: ifP => _; first by case=> <-; apply: values_single; lia.
  case: ifP => _; first by case=> <-; apply: values_single; lia.
  by case: ifP => _ //; case=> <-; apply: values_single; lia.
move=> k j m /(sm_find_In (sm_wf_uniq Wd)); rewrite Fd; case: ifP => // /eqP Ek [<- <-].
left; exists [:: 0].
  by apply: sm_find_mem; rewrite Fs; case: ifP => [|_]; rewrite ?eqxx //; lia.
by case=> // _; exists (iota 0 (gcdn (ix - k) q.-1)) => //; apply: values_iota.
Qed.

Lemma two_desc v : a_desc a v =
  [&& valid q d v, ~~ zpos q v d, all (zpos q v) (down d ix.+1), opos v ix,
      all (zpos q v) (down ix jx1) & if jx1 is jx.+1 then rpos q v (ix - jx) jx else true].
Proof.
have [[Wb Fb] [Ws Fs] [Wd Fd]] := two_find.
change (described d.+1 blocks sets deps v = [&& valid q d v, ~~ zpos q v d,
  all (zpos q v) (down d ix.+1), opos v ix, all (zpos q v) (down ix jx1)
  & if jx1 is jx.+1 then rpos q v (ix - jx) jx else true]).
have Hqq : 0 != q.-1 by lia.
apply/and4P/and5P.
  move=> [/eqP Hsz /(sm_allP _ Wb) Hb /(sm_allP _ Ws) Hs /(sm_allP _ Wd) Hdp].
  have Hzd k : jx1 <= k < ix -> nth 0 v k = q.-1.
    by move=> Hk; have := Hs k [:: q.-1]; rewrite Fs Hk inE => /(_ erefl)/eqP.
  have Hzu k : ix < k < d -> nth 0 v k = q.-1.
    move=> Hk; have := Hs k [:: q.-1]; rewrite Fs Hk.
    have -> : (jx1 <= k < ix) = false by lia.
    have -> : (k == ix) = false by lia.
    by rewrite inE => /(_ erefl)/eqP.
  have Hone : nth 0 v ix = 0.
    have := Hs ix [:: 0]; rewrite Fs eqxx.
    have -> : (jx1 <= ix < ix) = false by lia.
    by rewrite inE => /(_ erefl)/eqP.
  have Hlead : nth 0 v d < q.-1.
    have := Hb d (0, q.-1); rewrite Fb eqxx.
    by have -> : (d < jx1.-1) = false by [lia]; move=> /(_ erefl).
  have Hfree k : k < jx1.-1 -> nth 0 v k < q.
    by move=> Hk; have := Hb k (0, q); rewrite Fb Hk => /(_ erefl).
  have Hrep k : k.+1 = jx1 -> nth 0 v k < gcdn (ix - k) q.-1.
    move=> Ek; have := Hdp k (ix, [:: (0, iota 0 (gcdn (ix - k) q.-1))]).
    rewrite Fd Ek eqxx => /(_ erefl); rewrite /= /coupling Fs eqxx.
    have -> : (jx1 <= ix < ix) = false by lia.
    by rewrite Hone /= mem_iota add0n.
  split.
  - apply/validP; split=> // i Hi.
    case: (ltngtP i ix) => [H|H|->]; last by rewrite Hone; lia.
      case: (leqP jx1 i) => H1; first by rewrite Hzd; lia.
      case: (ltnP i jx1.-1) => H2; first exact: Hfree.
      have Ei : i.+1 = jx1 by lia.
      by have := Hrep i Ei; have := gcd_le (ix - i) Hq; lia.
    by case: (i =P d) => [->|Hne]; [lia|rewrite Hzu; lia].
  - by rewrite /zpos; lia.
  - by apply/allP => k; rewrite mem_down => Hk; rewrite /zpos Hzu //; lia.
  - by rewrite /opos Hone.
  - apply/andP; split; first by apply/allP => k; rewrite mem_down => Hk; rewrite /zpos Hzd.
    by case E: (jx1) => [//|jx]; rewrite /rpos Hrep.
move=> [/validP[Hsz Hval] Hlead /allP Hzu /eqP Hone /andP[/allP Hzd Hr]].
split; first exact/eqP.
- apply/(sm_allP _ Wb) => k x; rewrite Fb.
  case: ifP => Hk; first by case=> <- /=; apply: Hval; lia.
  case: ifP => // /eqP-> [<-] /=; have := Hval d (leqnn d).
  by move: Hlead; rewrite /zpos; lia.
- apply/(sm_allP _ Ws) => k x; rewrite Fs.
  case: ifP => Hk; first by case=> <-; rewrite inE; apply: Hzd; rewrite mem_down.
  case: ifP => [/eqP-> [<-]|_]; first by rewrite inE Hone.
  by case: ifP => // Hk2 [<-]; rewrite inE; apply: Hzu; rewrite mem_down.
apply/(sm_allP _ Wd) => k x; rewrite Fd; case: ifP => // /eqP Ek [<-] /=.
rewrite /coupling Fs eqxx.
have -> : (jx1 <= ix < ix) = false by lia.
rewrite Hone /= mem_iota add0n.
by move: Hr; rewrite -Ek.
Qed.

End Two.

(** The remaining shapes, all with explicit lookups. *)
Lemma mono_args_ok : a_ok (args_monomial q d).
Proof.
have Ws0 : sm_wf (sm_set ([::] : set_arg) d (power_coset_representatives q 1)) by [].
have [Ws Fs] := find_set_zeros q (down d 0) Ws0.
rewrite /a_ok /args_monomial; split=> //.
- apply: keys_partition => // k; rewrite Fs mem_down /= reps1.
  by case: ifP => H; [|case: eqP => [->|]] => /=; lia.
split=> // k s /(sm_find_In (sm_wf_uniq Ws)); rewrite Fs reps1 /=.
case: ifP => _; first by case=> <-; apply: values_single; lia.
by case: ifP => // _ [<-]; apply: values_single; lia.
Qed.

Lemma mono_desc v : a_desc (args_monomial q d) v =
  [&& valid q d v, opos v d & all (zpos q v) (down d 0)].
Proof.
have Ws0 : sm_wf (sm_set ([::] : set_arg) d (power_coset_representatives q 1)) by [].
have [Ws Fs] := find_set_zeros q (down d 0) Ws0.
rewrite /a_desc /args_monomial /described /= andbT.
have Fs' k : sm_find (set_zeros q [:: (d, power_coset_representatives q 1)] (down d 0)) k =
  if k < d then Some [:: q.-1] else if k == d then Some [:: 0] else None.
  by rewrite Fs mem_down /= reps1.
apply/andP/and3P => [[/eqP Hsz /(sm_allP _ Ws) Hs]|[/validP[Hsz Hval] /eqP Hone /allP Hz]].
  have Hzd k : k < d -> nth 0 v k = q.-1.
    by move=> Hk; have := Hs k [:: q.-1]; rewrite Fs' Hk inE => /(_ erefl)/eqP.
  have Hone : nth 0 v d = 0.
    by have := Hs d [:: 0]; rewrite Fs' ltnn eqxx inE => /(_ erefl)/eqP.
  split; [|by rewrite /opos Hone|by apply/allP => k; rewrite mem_down => Hk; rewrite /zpos Hzd].
  apply/validP; split=> // i; rewrite leq_eqVlt => /orP[/eqP->|Hi]; first by rewrite Hone; lia.
  by rewrite Hzd //; lia.
split; first exact/eqP.
apply/(sm_allP _ Ws) => k x; rewrite Fs'; case: ifP => Hk.
  by case=> <-; rewrite inE; apply: Hz; rewrite mem_down.
by case: ifP => // /eqP-> [<-]; rewrite inE Hone.
Qed.

Lemma divnz_find : exists blocks sets, 
  [/\ sm_wf blocks /\ (forall k, sm_find blocks k = if k < d - 3 then Some (0, q)
                               else if k == d.-1 then Some (0, q.-1) else None),
      sm_wf sets /\ (forall k, sm_find sets k =
         if k == d - 3 then Some (rcons (iota 0 (gcdn 3 q.-1)) q.-1)
         else if k == d - 2 then Some [:: q.-1] else if k == d then Some [:: 0] else None) &
      args_div_nonzero q d = (d.+1, blocks, sets, [::])].
Proof.
rewrite /args_div_nonzero; do 2 eexists.
have Hs1 : sm_wf (sm_set ([::] : blk_arg) (d - 1) (block_non_zero q)) by [].
have [Wb Fb] := find_set_complete q (down (d - 3) 0) Hs1.
have W1 : sm_wf (sm_set ([::] : set_arg) d (power_coset_representatives q 1)) by [].
have W2 := sm_wf_set (d - 2) [:: zero_index q] W1.
have W3 := sm_wf_set (d - 3) (rcons (power_coset_representatives q 3) (zero_index q)) W2.
split=> //; first by split=> // k; rewrite Fb mem_down /= subn1.
split=> // k; rewrite (sm_find_set _ _ _ W2) (sm_find_set _ _ _ W1) (sm_find_set _ _ _ (isT : sm_wf [::])) reps1.
by rewrite /power_coset_representatives /zero_index.
Qed.

Lemma divnz_args_ok : a_ok (args_div_nonzero q d).
Proof.
have [blocks [sets [[Wb Fb] [Ws Fs] ->]]] := divnz_find; rewrite /a_ok.
split=> //.
- apply: keys_partition => // k; rewrite Fb Fs /=.
  by repeat case: ifP => /=; lia.
- move=> k l u /(sm_find_In (sm_wf_uniq Wb)); rewrite Fb.
  by case: ifP => _; [|case: ifP => _ //]; move=> [<- <-]; apply: block_fits; lia.
split=> // k s /(sm_find_In (sm_wf_uniq Ws)); rewrite Fs.
case: ifP => _; first by case=> <-; apply: values_rcons.
case: ifP => _; first by case=> <-; apply: values_single; lia.
by case: ifP => _ //; case=> <-; apply: values_single; lia.
Qed.

Lemma mem_rep v n i : (nth 0 v i \in rcons (iota 0 (gcdn n q.-1)) q.-1) = zpos q v i || rpos q v n i.
Proof. by rewrite mem_rcons inE mem_iota /= add0n. Qed.

Lemma divnz_desc v : a_desc (args_div_nonzero q d) v =
  [&& valid q d v, opos v d, ~~ zpos q v d.-1, zpos q v (d - 2) & zpos q v (d - 3) || rpos q v 3 (d - 3)].
Proof.
have [blocks [sets [[Wb Fb] [Ws Fs] ->]]] := divnz_find; rewrite /a_desc.
rewrite /described /= andbT.
have /andP[Hg0 Hg] := gcd_le 3 Hq.
apply/and3P/and5P => [[/eqP Hsz /(sm_allP _ Wb) Hb /(sm_allP _ Ws) Hs]|
                      [/validP[Hsz Hval] /eqP Hone Hn1 Hz2 Hr]].
  have H3 : zpos q v (d - 3) || rpos q v 3 (d - 3).
    by have := Hs (d - 3) _; rewrite Fs eqxx => /(_ _ erefl); rewrite mem_rep.
  have H2 : zpos q v (d - 2).
    have := Hs (d - 2) _; rewrite Fs eqxx.
    by have -> : (d - 2 == d - 3) = false by [lia]; move=> /(_ _ erefl); rewrite inE.
  have Hone : nth 0 v d = 0.
    have := Hs d _; rewrite Fs eqxx.
    have -> : (d == d - 3) = false by lia.
    have -> : (d == d - 2) = false by lia.
    by move=> /(_ _ erefl); rewrite inE => /eqP.
  have H1 : nth 0 v d.-1 < q.-1.
    have := Hb d.-1 _; rewrite Fb eqxx.
    have -> : (d.-1 < d - 3) = false by lia.
    by move=> /(_ _ erefl).
  have Hfree k : k < d - 3 -> nth 0 v k < q.
    by move=> Hk; have := Hb k _; rewrite Fb Hk => /(_ _ erefl).
  split=> //; [|by rewrite /opos Hone|by rewrite /zpos; lia].
  apply/validP; split=> // i Hi.
  case: (ltnP i (d - 3)) => Hi3; first exact: Hfree.
  move: H3 H2; rewrite /zpos /rpos => H3 H2.
  have : [|| i == d - 3, i == d - 2, i == d.-1 | i == d] by lia.
  by case/or4P => /eqP E'; rewrite E'; lia.
split; first exact/eqP.
- apply/(sm_allP _ Wb) => k x; rewrite Fb.
  case: ifP => Hk; first by case=> <- /=; apply: Hval; lia.
  case: ifP => // /eqP-> [<-] /=; have := Hval d.-1 (leq_pred d).
  by move: Hn1; rewrite /zpos; lia.
apply/(sm_allP _ Ws) => k x; rewrite Fs.
case: ifP => [/eqP-> [<-]|_]; first by rewrite mem_rep.
case: ifP => [/eqP-> [<-]|_]; first by rewrite inE.
by case: ifP => // /eqP-> [<-]; rewrite inE Hone.
Qed.

Lemma square_find : exists blocks sets, 
  [/\ sm_wf blocks /\ (forall k, sm_find blocks k = if k < d - 2 then Some (0, q) else None),
      sm_wf sets /\ (forall k, sm_find sets k =
         if k == d - 2 then Some (rcons (iota 0 (gcdn 2 q.-1)) q.-1)
         else if k == d.-1 then Some [:: q.-1] else if k == d then Some [:: 0] else None) &
      args_square q d = (d.+1, blocks, sets, [::])].
Proof.
rewrite /args_square; do 2 eexists.
have [Wb Fb] := find_set_complete q (down (d - 2) 0) (isT : sm_wf [::]).
have W1 : sm_wf (sm_set ([::] : set_arg) d (power_coset_representatives q 1)) by [].
have W2 := sm_wf_set (d - 1) [:: zero_index q] W1.
have W3 := sm_wf_set (d - 2) (rcons (power_coset_representatives q 2) (zero_index q)) W2.
split=> //; first by split=> // k; rewrite Fb mem_down.
split=> // k; rewrite (sm_find_set _ _ _ W2) (sm_find_set _ _ _ W1) (sm_find_set _ _ _ (isT : sm_wf [::])) reps1 subn1.
by rewrite /power_coset_representatives /zero_index.
Qed.

Lemma square_args_ok : a_ok (args_square q d).
Proof.
have [blocks [sets [[Wb Fb] [Ws Fs] ->]]] := square_find; rewrite /a_ok.
split=> //.
- apply: keys_partition => // k; rewrite Fb Fs /=.
  by repeat case: ifP => /=; lia.
- move=> k l u /(sm_find_In (sm_wf_uniq Wb)); rewrite Fb.
  by case: ifP => _ //; move=> [<- <-]; apply: block_fits; lia.
split=> // k s /(sm_find_In (sm_wf_uniq Ws)); rewrite Fs.
case: ifP => _; first by case=> <-; apply: values_rcons.
case: ifP => _; first by case=> <-; apply: values_single; lia.
by case: ifP => _ //; case=> <-; apply: values_single; lia.
Qed.

Lemma square_desc v : a_desc (args_square q d) v =
  [&& valid q d v, opos v d, zpos q v d.-1 & zpos q v (d - 2) || rpos q v 2 (d - 2)].
Proof.
have [blocks [sets [[Wb Fb] [Ws Fs] ->]]] := square_find; rewrite /a_desc.
rewrite /described /= andbT.
have /andP[Hg0 Hg] := gcd_le 2 Hq.
apply/and3P/and4P => [[/eqP Hsz /(sm_allP _ Wb) Hb /(sm_allP _ Ws) Hs]|
                      [/validP[Hsz Hval] /eqP Hone Hz1 Hr]].
  have H3 : zpos q v (d - 2) || rpos q v 2 (d - 2).
    by have := Hs (d - 2) _; rewrite Fs eqxx => /(_ _ erefl); rewrite mem_rep.
  have H2 : zpos q v d.-1.
    have := Hs d.-1 _; rewrite Fs eqxx.
    by have -> : (d.-1 == d - 2) = false by [lia]; move=> /(_ _ erefl); rewrite inE.
  have Hone : nth 0 v d = 0.
    have := Hs d _; rewrite Fs eqxx.
    have -> : (d == d - 2) = false by lia.
    have -> : (d == d.-1) = false by lia.
    by move=> /(_ _ erefl); rewrite inE => /eqP.
  have Hfree k : k < d - 2 -> nth 0 v k < q.
    by move=> Hk; have := Hb k _; rewrite Fb Hk => /(_ _ erefl).
  split=> //; [|by rewrite /opos Hone].
  apply/validP; split=> // i Hi.
  case: (ltnP i (d - 2)) => Hi3; first exact: Hfree.
  move: H3 H2; rewrite /zpos /rpos => H3 H2.
  have : [|| i == d - 2, i == d.-1 | i == d] by lia.
  by case/or3P => /eqP E'; rewrite E'; lia.
split; first exact/eqP.
- apply/(sm_allP _ Wb) => k x; rewrite Fb.
  by case: ifP => Hk // -[<-] /=; apply: Hval; lia.
apply/(sm_allP _ Ws) => k x; rewrite Fs.
case: ifP => [/eqP-> [<-]|_]; first by rewrite mem_rep.
case: ifP => [/eqP-> [<-]|_]; first by rewrite inE.
by case: ifP => // /eqP-> [<-]; rewrite inE Hone.
Qed.

End Args.
