(** Proofs about Setup.v. *)
Set Warnings "-notation-overridden,-ambiguous-paths".
From Coq Require Import String.
From mathcomp Require Import all_ssreflect zify.
From Verif Require Import Res ResFacts OMap Text Setup.

Set Implicit Arguments.
Unset Strict Implicit.
Unset Printing Implicit Defensive.

(** ** Devices *)
Lemma pick_spec pfs s : 
  foldl pick_platform s pfs =
  (s.1 ++ [seq pf_vendor pf | pf <- (foldl pick_platform (s.1, [::]) pfs).2],
   s.2 ++ (foldl pick_platform (s.1, [::]) pfs).2).
Proof.
elim: pfs s => [|pf pfs IH] [vs ps] /=; first by rewrite !cats0.
rewrite /pick_platform /=; case: ifP => Hv /=; first exact: IH.
by rewrite IH [in RHS]IH /= -!cats1 -!catA.
Qed.

Definition chosen (vs : seq (seq char)) (pfs : seq platform) : seq platform := (foldl pick_platform (vs, [::]) pfs).2.

Lemma chosen_cons vs pf pfs : chosen vs (pf :: pfs) =
  if pf_vendor pf \in vs then chosen vs pfs else pf :: chosen (rcons vs (pf_vendor pf)) pfs.
Proof.
rewrite /chosen [foldl _ _ (_ :: _)]/= {2}/pick_platform [in X in X = _]/=; case: ifP => // _.
by rewrite [in LHS]pick_spec.
Qed.

Lemma chosen_all vs pfs : uniq (vs ++ [seq pf_vendor pf | pf <- pfs]) -> chosen vs pfs = pfs.
Proof.
elim: pfs vs => [|pf pfs IH] vs //= Hu; rewrite chosen_cons ifN.
  by rewrite IH // -cats1 -catA.
by move: Hu; rewrite cat_uniq /= negb_or => /and3P[_ /andP[]].
Qed.

Lemma devices_all pfs : uniq [seq pf_vendor pf | pf <- pfs] ->
  devices pfs = flatten [seq pf_gpus pf ++ pf_accelerators pf | pf <- pfs].
Proof. by move=> Hu; rewrite /devices -/(chosen [::] pfs) chosen_all. Qed.

Lemma chosen_mem vs pfs d : d \in flatten [seq pf_gpus pf ++ pf_accelerators pf | pf <- chosen vs pfs] <->
  exists pre pf post, [/\ pfs = pre ++ pf :: post, pf_vendor pf \notin vs,
    pf_vendor pf \notin [seq pf_vendor x | x <- pre] & d \in pf_gpus pf ++ pf_accelerators pf].
Proof.
elim: pfs vs => [|pf pfs IH] vs; first by split=> // -[[|? ?] [? [? []]]].
rewrite chosen_cons; case: ifP => Hv.
  rewrite IH; split=> [[pre [pf' [post [-> H1 H2 H3]]]]|[[|x pre] [pf' [post [[E1 E2] H1 H2 H3]]]]].
  - exists (pf :: pre), pf', post; split=> //=; rewrite inE negb_or H2 andbT.
    by apply: contraNneq H1 => ->.
  - by move: H1; rewrite -E1 Hv.
  exists pre, pf', post; split=> //.
  by move: H2; rewrite /= inE negb_or => /andP[].
rewrite [flatten _]/= mem_cat; split=> [/orP[H|]|[[|x pre] [pf' [post [[E1 E2] H1 H2 H3]]]]].
- by exists [::], pf, pfs; split=> //; rewrite Hv.
- move/IH => [pre [pf' [post [-> H1 H2 H3]]]]; move: H1; rewrite mem_rcons inE negb_or => /andP[H1 H1'].
  by exists (pf :: pre), pf', post; split=> //=; rewrite inE negb_or H1 H2.
- by rewrite E1 H3.
apply/orP; right; apply/IH; exists pre, pf', post; split=> //.
  rewrite mem_rcons inE negb_or H1 andbT.
  by move: H2; rewrite /= inE negb_or -E1 => /andP[].
by move: H2; rewrite /= inE negb_or => /andP[].
Qed.

Lemma devices_mem pfs d : d \in devices pfs <->
  exists pre pf post, [/\ pfs = pre ++ pf :: post,
    pf_vendor pf \notin [seq pf_vendor x | x <- pre] & d \in pf_gpus pf ++ pf_accelerators pf].
Proof.
rewrite /devices -/(chosen [::] pfs) chosen_mem.
split; first by move=> [pre [pf [post [H1 H2 H3 H4]]]]; exists pre, pf, post.
by move=> [pre [pf [post [H1 H2 H3]]]]; exists pre, pf, post.
Qed.

(** ** Programs and kernels *)
Section Counts.
Variable builds : nat -> bool.

Definition itf_ok (itf : interface) : Prop :=
  [/\ sm_wf (i_programs itf), forall d k, sm_find (i_programs itf) d = Some k -> k = d.+1,
      uniq (i_built itf) & forall d, isSome (sm_find (i_programs itf) d) = (d \in i_built itf)].

Definition tab_ok (itf : interface) (t : cltable) : Prop :=
  [/\ ct_opencl t, ct_buffers t, ct_reduction t, sm_wf (ct_kernels t) &
      forall d k, sm_find (ct_kernels t) d = Some k -> k = Kernel d d.+1 /\ d \in i_built itf].

Lemma program_ok itf d : itf_ok itf -> builds d -> exists itf',
  [/\ program_evaluation builds itf d = Ok (itf', d.+1), itf_ok itf', i_device itf' = i_device itf,
      i_built itf' =i d :: i_built itf & d \in i_built itf -> itf' = itf].
Proof.
move=> [H1 H2 H3 H4] Hb; rewrite /program_evaluation.
case E: (sm_find _ d) => [k|].
  exists itf; rewrite (H2 _ _ E); split=> //.
  by move=> x; rewrite inE; case: eqP => // ->; rewrite -H4 E.
have Hd : d \notin i_built itf by rewrite -H4 E.
rewrite Hb; eexists; split; [by []| |by []| |by move=> H; rewrite H in Hd].
  split=> /=; [exact: sm_wf_set| | |].
  - by move=> d' k; rewrite sm_find_set //; case: eqP => [-> [<-]|_ /H2].
  - by rewrite rcons_uniq Hd.
  by move=> d'; rewrite sm_find_set // mem_rcons inE; case: eqP => //= _; rewrite H4.
by move=> x; rewrite mem_rcons.
Qed.

Lemma count_ok itf t n : itf_ok itf -> tab_ok itf t -> 0 < n -> builds n.-1 ->
  exists itf' t', [/\ count_on builds itf t n = Ok (itf', t', Some n), itf_ok itf' /\ tab_ok itf' t', i_device itf' = i_device itf &
    i_built itf' =i n.-1 :: i_built itf].
Proof.
move=> Hi [H1 H2 H3 H4 H5] Hn Hb; rewrite /count_on /is_opencl_enabled H1 /= /kernel_evaluation.
case E: (sm_find _ _) => [k|].
  have [-> Hd] := H5 _ _ E; rewrite /= prednK // eqxx /= H3; exists itf, t; split=> //.
  by move=> x; rewrite inE; case: eqP => // ->.
rewrite /mk_kernel; have [itf1 [-> Hi1 D1 B1 _]] := program_ok Hi Hb; rewrite [bind (Ok _) _]/=.
have [itf2 [E2 Hi2 D2 B2 S2]] := program_ok Hi1 Hb; rewrite {}S2 in E2; last by rewrite B1 inE eqxx.
rewrite E2 /= H2 /= prednK // eqxx /= H3; eexists; eexists; split; [by []| |by []|by []].
split=> //; split=> //=; first exact: sm_wf_set.
move=> d k; rewrite sm_find_set //; case: eqP => [-> [<-]|_ /H5[-> Hd]].
  by rewrite B1 inE eqxx prednK.
by rewrite B1 inE Hd orbT.
Qed.

Lemma tab_ok_sub itf itf' t : {subset i_built itf <= i_built itf'} -> tab_ok itf t -> tab_ok itf' t.
Proof. by move=> Hs [H1 H2 H3 H4 H5]; split=> // d k /H5[-> /Hs]. Qed.

Lemma counts_ok work itf ts : itf_ok itf -> (forall t, List.In t ts -> tab_ok itf t) ->
  (forall w, w \in work -> [/\ w.1 < size ts, 0 < w.2 & builds w.2.-1]) ->
  exists itf' ts', [/\ counts_on builds itf ts work = Ok (itf', ts', [seq Some w.2 | w <- work]), itf_ok itf',
    i_device itf' = i_device itf & i_built itf' =i i_built itf ++ [seq w.2.-1 | w <- work]].
Proof.
elim: work itf ts => [|[i n] work IH] itf ts Hi Ht Hw.
  by exists itf, ts; split=> // x; rewrite cats0.
have [|/= Hit Hn Hb] := Hw (i, n); first by rewrite inE eqxx.
have t0 := table_by_reference true.
have Hin : List.In (nth t0 ts i) ts by clear -Hit; elim: ts i Hit => [|t ts IHt] [|i] //= Hit; [left|right; exact: IHt].
have [itf1 [t1 [E1 [Hi1 Ht1] D1 B1]]] := count_ok Hi (Ht _ Hin) Hn Hb.
rewrite (vgetE t0) //= E1 /= (vsetE t0) //=.
have [| |itf2 [ts2 [E2 Hi2 D2 B2]]] := IH itf1 (set_nth t0 ts i t1) Hi1.
- move=> t; have : forall t, List.In t (set_nth t0 ts i t1) -> t = t1 \/ List.In t ts.
    clear -Hit; elim: ts i Hit => [|t ts IHt] [|i] //= Hit x; first by case; [left|right; right].
    by case=> [|/IHt[]] //; [right; left|left|right; right].
  move=> H /H[->//|/Ht]; apply: tab_ok_sub => x Hx.
  by rewrite B1 inE Hx orbT.
- move=> w Hwi; have [|H1 H2 H3] := Hw w; first by rewrite inE Hwi orbT.
  by split=> //; rewrite size_set_nth; apply: leq_trans H1 (leq_maxr _ _).
exists itf2, ts2; rewrite E2 /=; split=> //; first by rewrite D2.
by move=> x; rewrite B2 !mem_cat B1 !inE /= orbCA orbA.
Qed.
End Counts.

Lemma counts_spec (builds : nat -> bool) (device m : nat) (work : seq (nat * nat)) :
  (forall w, w \in work -> [/\ w.1 < m, 0 < w.2 & builds w.2.-1]) ->
  exists itf ts, [/\ counts_on builds (mk_interface device) (nseq m (table_by_reference true)) work
                       = Ok (itf, ts, [seq Some w.2 | w <- work]),
    i_device itf = device, uniq (i_built itf) & i_built itf =i [seq w.2.-1 | w <- work]].
Proof.
move=> Hw; have Hi : itf_ok (mk_interface device) by split.
have [| |itf [ts [E [_ _ Hu _] D B]]] := @counts_ok builds work _ (nseq m (table_by_reference true)) Hi.
- by elim: m {Hw} => [|m IH] //= t [<-|/IH].
- by rewrite size_nseq.
by exists itf, ts.
Qed.

Lemma move_undef (builds : nat -> bool) (itf : interface) (n : nat) : builds n.-1 -> 
  sm_find (i_programs itf) n.-1 = None -> sm_wf (i_programs itf) ->
  is_opencl_enabled (table_by_move true) /\ count_on builds itf (table_by_move true) n = Undef.
Proof.
move=> Hb Hf Hw; split=> //; rewrite /count_on /kernel_evaluation /mk_kernel /=.
by rewrite {1}/program_evaluation Hf Hb /= /program_evaluation /= sm_find_set // eqxx.
Qed.

Lemma moved_undef (builds : nat -> bool) (device n : nat) : builds n.-1 ->
  is_opencl_enabled (table_by_move true) /\ count_on builds (mk_interface device) (table_by_move true) n = Undef.
Proof. by move=> Hb; apply: move_undef. Qed.

Lemma devices_lost : exists (pfs : seq platform) (d : nat),
  (exists pf, List.In pf pfs /\ d \in pf_gpus pf) /\ d \notin devices pfs.
Proof.
exists [:: Platform (text "Intel") [::] [:: 0]; Platform (text "Intel") [:: 1] [::]], 1; split=> //.
by exists (Platform (text "Intel") [:: 1] [::]); split=> //; right; left.
Qed.
