(** Lemmas behind the BlockIterator properties C01-C06. *)
Set Warnings "-notation-overridden,-ambiguous-paths".
From mathcomp Require Import all_ssreflect zify.
From Verif Require Import Res ResFacts BlockIter BlockSpec Odometer BlockIterProofs.

Set Implicit Arguments.
Unset Strict Implicit.
Unset Printing Implicit Defensive.

Lemma foldM_assign (f : seq nat -> nat -> res (seq nat)) (g : nat -> nat) pos l n :
  size pos = n -> all (fun k => k < n) l ->
  (forall pos k, k \in l -> size pos = n -> f pos k = Ok (set_nth 0 pos k (g k))) ->
  exists pos', [/\ foldM f pos l = Ok pos', size pos' = n &
    forall i, nth 0 pos' i = if i \in l then g i else nth 0 pos i].
Proof.
elim: l pos => [|k l IH] pos Hs /=; first by exists pos.
move=> /andP[Hk Hl] Hf; rewrite Hf ?inE ?eqxx //=.
have [|||pos' [-> Hs' Hn]] := IH (set_nth 0 pos k (g k)) => //.
- by rewrite size_set_nth Hs; apply/maxn_idPr.
- by move=> p j Hj Hp; apply: Hf => //; rewrite inE Hj orbT.
exists pos'; split=> // i; rewrite Hn nth_set_nth /= inE.
by case: (i \in l); rewrite ?orbT ?orbF //; case: eqP => [->|].
Qed.

Lemma mk_biter_ok W len blocks psz sets deps : args_ok W len blocks psz sets deps ->
  exists uo bs p0,
    [/\ mk_biter len blocks psz sets deps =
          Ok (BIter len uo (sm_keys sets) (sm_keys deps) bs sets deps p0 (len == 0)),
        sm_wf bs, perm_eq uo (sm_keys blocks), sm_keys bs =i sm_keys blocks &
        [/\ (forall ix l u, (ix, (l, u)) \in blocks -> exists st,
               [/\ sm_find bs ix = Some (l, u, st), 0 < st & st <= minn psz (u - l)]),
            \prod_(ix <- uo) stepof bs ix <= psz, size p0 = len &
            forall ix, ix < len -> nth 0 p0 ix = dfirst bs ix]].
Proof.
move=> Hok; have [[Hwb Hws Hwd] Hperm Hp Hb _] := Hok.
have [|uo [bs [E1 H1 H2 H3 [H4 H5]]]] := init_blocks_ok Hwb Hp.
  by move=> ix l u /Hb[].
have Hlt : forall k, k \in sm_keys blocks ++ sm_keys sets ++ sm_keys deps -> k < len.
  by move=> k; rewrite (perm_mem Hperm) mem_iota.
have Hbs : forall k, k \in uo -> isSome (sm_find bs k).
  by move=> k; rewrite (perm_mem H2) -H3 sm_find_keys.
rewrite /mk_biter E1 /= /initial_position.
have [|||q1 [-> Hs1 Hn1]] := @foldM_assign
   (fun pos ix => b <- sm_at bs ix ;; vset pos ix b.1.1) (dfirst bs) (nseq len 0) uo len.
- by rewrite size_nseq.
- by apply/allP => k Hk; apply: Hlt; rewrite mem_cat -(perm_mem H2) Hk.
- move=> pos k Hk Hs; rewrite /sm_at /dfirst; move: (Hbs k Hk).
  case: (sm_find bs k) => //= b _; rewrite (vsetE 0) // Hs.
  by apply: Hlt; rewrite mem_cat -(perm_mem H2) Hk.
rewrite /=.
have [|||q2 [-> Hs2 Hn2]] := @foldM_assign
   (fun pos ix => vset pos ix 0) (fun=> 0) q1 (sm_keys sets) len => //.
- by apply/allP => k Hk; apply: Hlt; rewrite !mem_cat Hk orbT.
- move=> pos k Hk Hs; rewrite (vsetE 0) // Hs.
  by apply: Hlt; rewrite !mem_cat Hk orbT.
rewrite /=.
have [|||q3 [-> Hs3 Hn3]] := @foldM_assign
   (fun pos ix => vset pos ix 0) (fun=> 0) q2 (sm_keys deps) len => //.
- by apply/allP => k Hk; apply: Hlt; rewrite !mem_cat Hk !orbT.
- move=> pos k Hk Hs; rewrite (vsetE 0) // Hs.
  by apply: Hlt; rewrite !mem_cat Hk !orbT.
exists uo, bs, q3; split=> //; split=> // ix Hix.
rewrite Hn3 Hn2 Hn1 /dfirst nth_nseq if_same (perm_mem H2) -H3 -(sm_find_keys bs).
have [Hd1 Hd2 Hd3] := keys_disj3 Hok H2.
case: ifP => [Hn|_]; first by rewrite sm_find_None // H3 Hd2.
case: ifP => [Hn|_]; first by rewrite sm_find_None // H3 Hd3.
by case: (sm_find bs ix).
Qed.

Lemma block_partition W len blocks psz sets deps :
  args_ok W len blocks psz sets deps -> 0 < len ->
  exists it boxes,
    [/\ mk_biter len blocks psz sets deps = Ok it,
        (forall fuel, size boxes <= fuel -> iterate W (as_block W) fuel it = Ok boxes),
        (forall v, count (fun b => in_box b v) boxes = described len blocks sets deps v) &
        all (fun b => (size b == len) && (0 < box_volume b <= psz)) boxes].
Proof.
move=> Hok Hlen.
have [uo [bs [p0 [E H1 H2 H3 [H4 H5 H6 H7]]]]] := mk_biter_ok Hok.
eexists; exists (map (boxof len sets deps bs) (positions sets deps uo bs p0)).
split; first exact: E.
- have -> : (len == 0) = false by case: (len) Hlen.
  move=> fuel; rewrite size_map => Hf.
  apply: (iterate_positions Hok H1 H2 H3 H4 H5 H6 H7 Hlen _ Hf) => p Hp.
  exact: (as_block_ok Hok H1 H2 H3 H4 H5 H6).
- by move=> v; apply: (boxes_partition Hok).
- apply/allP => b /mapP[p Hp ->]; rewrite size_map size_iota eqxx /=.
  exact: (boxof_volume Hok H1 H2 H3 H4 H5 H6).
Qed.

Lemma nth_map_iota T (x0 : T) f n i : i < n -> nth x0 [seq f i | i <- iota 0 n] i = f i.
Proof. by move=> Hi; rewrite (nth_map 0) ?size_iota // nth_iota. Qed.

Lemma uniq_countmem (T : eqType) (s : seq T) : (forall x, count_mem x s <= 1) -> uniq s.
Proof.
elim: s => [|x s IH] //= H; rewrite IH ?andbT.
  by have := H x; rewrite /= eqxx -has_pred1 has_count; lia.
by move=> y; have := H y; rewrite /=; lia.
Qed.

Lemma unit_positions W len blocks sets deps :
  args_ok W len blocks 1 sets deps -> 0 < len ->
  exists it vs,
    [/\ mk_biter len blocks 1 sets deps = Ok it,
        (forall fuel, size vs <= fuel -> iterate W as_position fuel it = Ok vs),
        uniq vs & forall v, (v \in vs) = described len blocks sets deps v].
Proof.
move=> Hok Hlen.
have [uo [bs [p0 [E H1 H2 H3 [H4 H5 H6 H7]]]]] := mk_biter_ok Hok.
set vs := [seq [seq posval sets deps p i | i <- iota 0 len] | p <- positions sets deps uo bs p0].
have Hcount : forall v, count_mem v vs = described len blocks sets deps v.
  move=> v; rewrite -(boxes_partition Hok H1 H2 H3 H4 H5 H6 v) /vs !count_map.
  apply: eq_in_count => p Hp /=.
  have Hst : forall i, i < len -> boxat sets deps bs p i = (posval sets deps p i, (posval sets deps p i).+1).
    move=> i Hi; rewrite /boxat; case Eb: (sm_find bs i) => [[[l u] st]|] //.
    have [l' [u' [st' [[E1 E2 E3] _ Hlu Hst [Hm _ _]]]]] := find_bs Hok H1 H2 H3 H4 H5 Eb; subst l' u' st'.
    have [k Hk1 Hk2] := block_pos Hok H1 H2 H3 H4 H5 H6 Hp Eb.
    by congr pair; lia.
  apply/eqP/in_boxP => [<-|[Hs Hb]].
    rewrite !size_map; split=> // i; rewrite size_iota => Hi.
    by rewrite /boxof !nth_map_iota // Hst //=; lia.
  move: Hs; rewrite size_map size_iota => Hs.
  apply: (@eq_from_nth _ 0); first by rewrite size_map size_iota.
  move=> i; rewrite size_map size_iota => Hi.
  have := Hb i; rewrite size_map size_iota => /(_ Hi).
  by rewrite /boxof !nth_map_iota // Hst //=; lia.
eexists; exists vs; split; first exact: E.
- have -> : (len == 0) = false by case: (len) Hlen.
  move=> fuel; rewrite size_map => Hf.
  apply: (iterate_positions Hok H1 H2 H3 H4 H5 H6 H7 Hlen _ Hf) => p Hp.
  exact: (as_position_ok Hok H1 H2 H3 H4 H5 H6).
- by apply: uniq_countmem => v; rewrite Hcount; case: described.
- by move=> v; rewrite -has_pred1 has_count Hcount; case: described.
Qed.

(** ** Boxes given by bounds *)

Definition bounds_ok (W : nat) (bounds : seq (nat * nat)) : Prop :=
  all (fun lu => (lu.1 < lu.2) && (lu.2 < W)) bounds.

Lemma keys_zip T (l : seq T) : sm_keys (zip (iota 0 (size l)) l) = iota 0 (size l).
Proof. by rewrite /sm_keys -/unzip1 unzip1_zip // size_iota. Qed.

Lemma mem_zip_iota (T : eqType) (x0 : T) (l : seq T) k x :
  (k, x) \in zip (iota 0 (size l)) l -> k < size l /\ nth x0 l k = x.
Proof.
move/(nthP (0, x0)) => [i]; rewrite size_zip size_iota minnn => Hi.
by rewrite nth_zip ?size_iota // nth_iota // => -[<- <-].
Qed.

Lemma bounds_args_ok W bounds : bounds_ok W bounds ->
  args_ok W (size bounds) (zip (iota 0 (size bounds)) bounds) 1 [::] [::].
Proof.
move=> /allP Hb; split=> //.
- by split=> //; rewrite /sm_wf keys_zip iota_ltn_sorted.
- by rewrite keys_zip /= cats0.
- move=> ix l u /(mem_zip_iota (0,0))[Hi E].
  have /Hb : (l, u) \in bounds by rewrite -E mem_nth.
  by rewrite /=; lia.
Qed.

Lemma described_bounds bounds v :
  described (size bounds) (zip (iota 0 (size bounds)) bounds) [::] [::] v = in_box bounds v.
Proof.
rewrite /described /= !andbT; apply/andP/in_boxP => [[/eqP Hs /allP H]|[Hs H]].
  split=> // i Hi.
  have Hz : (i, nth (0,0) bounds i) \in zip (iota 0 (size bounds)) bounds.
    apply/(nthP (0,(0,0))); exists i; first by rewrite size_zip size_iota minnn.
    by rewrite nth_zip ?size_iota // nth_iota.
  exact: (H _ Hz).
split; first exact/eqP.
apply/allP => -[i [l u]] /(mem_zip_iota (0,0))[Hi E] /=.
by have := H i Hi; rewrite E.
Qed.

Fixpoint box_enum (b : seq (nat * nat)) : seq (seq nat) :=
  if b is lu :: b' then allpairs cons (iota lu.1 (lu.2 - lu.1)) (box_enum b') else [:: [::]].

Lemma box_enum_size b : size (box_enum b) = box_volume b.
Proof.
rewrite /box_volume; elim: b => [|lu b IH] /=; first by rewrite big_nil.
by rewrite size_allpairs size_iota big_cons IH.
Qed.

Lemma mem_box_enum b v : (v \in box_enum b) = in_box b v.
Proof.
elim: b v => [|lu b IH] [|x v] //=; first by apply/negP => /allpairsP[[a c] []].
apply/allpairsP/andP => [[[a c] [/=]]|[H1 H2]].
  by rewrite mem_iota IH => Ha Hc [-> ->]; split=> //; lia.
exists (x, v); split=> //=; last by rewrite IH.
by rewrite mem_iota; lia.
Qed.

Lemma box_enum_uniq b : uniq (box_enum b).
Proof.
elim: b => [|lu b IH] //=; apply: allpairs_uniq => //; first exact: iota_uniq.
by move=> [a c] [a' c'] _ _ /= [-> ->].
Qed.

Lemma bounds_positions W bounds : bounds_ok W bounds -> bounds != [::] ->
  exists it vs,
    [/\ mk_biter_bounds bounds = Ok it,
        (forall fuel, size vs <= fuel -> iterate W as_position fuel it = Ok vs),
        uniq vs, (forall v, (v \in vs) = in_box bounds v) & size vs = box_volume bounds].
Proof.
move=> Hb Hn.
have Hs : 0 < size bounds by case: (bounds) Hn.
have [it [vs [H1 H2 H3 H4]]] := unit_positions (bounds_args_ok Hb) Hs.
have Hm : forall v, (v \in vs) = in_box bounds v.
  by move=> v; rewrite H4 described_bounds.
exists it, vs; split=> //.
rewrite -box_enum_size; apply: perm_size; apply: uniq_perm => //; first exact: box_enum_uniq.
by move=> v; rewrite Hm mem_box_enum.
Qed.

(** ** as_block_enumerator *)

Lemma foldl_sm_set (T V : Type) (key : T -> nat) (val : nat -> V) (l : seq T) (m : smap V) :
  sm_wf m ->
  let m' := foldl (fun ss d => sm_set ss (key d) (val (key d))) m l in
  sm_wf m' /\ forall i, sm_find m' i = if i \in map key l then Some (val i) else sm_find m i.
Proof.
elim: l m => [|d l IH] m Hw //=.
have [H1 H2] := IH (sm_set m (key d) (val (key d))) (sm_wf_set _ _ Hw).
split=> // i; rewrite H2 sm_find_set // inE.
by case: (i \in map key l); rewrite ?orbT ?orbF //; case: eqP => [->|].
Qed.

Lemma foldl_sm_set2 (T V V' : Type) (key : T -> nat) (c : nat -> bool)
    (val : nat -> V) (val' : nat -> V') (l : seq T) (m : smap V * smap V') :
  sm_wf m.1 -> sm_wf m.2 ->
  let m' := foldl (fun ms d => if c (key d) then (sm_set ms.1 (key d) (val (key d)), ms.2)
                               else (ms.1, sm_set ms.2 (key d) (val' (key d)))) m l in
  [/\ sm_wf m'.1, sm_wf m'.2,
     (forall i, sm_find m'.1 i = if (i \in map key l) && c i then Some (val i) else sm_find m.1 i) &
     (forall i, sm_find m'.2 i = if (i \in map key l) && ~~ c i then Some (val' i) else sm_find m.2 i)].
Proof.
elim: l m => [|d l IH] m Hw1 Hw2 //=.
set m1 := if c (key d) then _ else _.
have Hw1' : sm_wf m1.1 by rewrite /m1; case: ifP => _ //; apply: sm_wf_set.
have Hw2' : sm_wf m1.2 by rewrite /m1; case: ifP => _ //; apply: sm_wf_set.
have [H1 H2 H3 H4] := IH m1 Hw1' Hw2'.
split=> // i; rewrite ?H3 ?H4 /m1 inE;
  case: (i \in map key l); rewrite ?orbT ?orbF /=;
  case: (i =P key d) => [->|/eqP/negbTE Hne]; case Ec: (c (key d)) => /=;
  rewrite ?sm_find_set ?eqxx ?Hne //; by case: ifP.
Qed.

Lemma enumerator_ok W len blocks psz sets deps it0 k it :
  args_ok W len blocks psz sets deps -> 0 < len ->
  mk_biter len blocks psz sets deps = Ok it0 ->
  iter k (fun m => bind m (bi_step W)) (Ok it0) = Ok it -> ~~ bi_end it ->
  exists box en vs,
    [/\ as_block W it = Ok box, as_block_enumerator W it = Ok en,
        (forall fuel, size vs <= fuel -> iterate W as_position fuel en = Ok vs),
        uniq vs & forall v, (v \in vs) = in_box box v].
Proof.
move=> Hok Hlen.
have [uo [bs [p0 [-> H1 H2 H3 [H4 H5 H6 H7]]]]] := mk_biter_ok Hok.
have -> : (len == 0) = false by case: (len) Hlen.
case=> <- Hk He.
have [l El] := positions_head Hok H1 H2 H3 H4 H5 H6 H7.
have [Hc _] := penum_chain (order_uniq Hok H2) (order_closed Hok H1 H2 H3 H4 H5)
                 (order_good Hok H1 H2 H3 H4 H5 H6).
have [p Hp ->] := chain_reach Hok H1 H2 H3 H4 H5 Hlen
  (fun p Hp => positions_size Hok H2 H6 Hp) Hc El Hk He.
exists (boxof len sets deps bs p).
rewrite (as_block_ok Hok H1 H2 H3 H4 H5 H6) //.
rewrite /as_block_enumerator (as_position_ok Hok H1 H2 H3 H4 H5 H6) //=.
set pos := [seq posval sets deps p i | i <- iota 0 len].
set bx := boxat sets deps bs p.
pose wide i := 1 < (bx i).2 - (bx i).1.
have Hpos : forall i, i < len -> vget pos i = Ok (bx i).1.
  by move=> i Hi; rewrite (vgetE 0) ?size_map ?size_iota // nth_map_iota.
have Hblt : forall i, i \in sm_keys bs -> i < len.
  move=> i Hi; rewrite -(order_mem Hok H2) !mem_cat (perm_mem H2) -H3 Hi; by rewrite !orbT.
have Hbx : forall i, i < len -> (bx i).1 < (bx i).2 /\ (bx i).2 < W.
  move=> i Hi; rewrite /bx /boxat; case E: (sm_find bs i) => [[[lb ub] st]|] /=.
    have [l' [u' [st' [[E1 E2 E3] _ Hlu Hst [_ HW _]]]]] := find_bs Hok H1 H2 H3 H4 H5 E.
    subst l' u' st'.
    by have [k' Hk1 Hk2] := block_pos Hok H1 H2 H3 H4 H5 H6 Hp E; lia.
  by have := posval_succ Hok H1 H2 H3 H4 H5 H6 Hp Hi E; lia.
pose g1 := fun (ms : blk_arg * set_arg) (d : nat * (nat * nat * nat)) =>
  if wide d.1 then (sm_set ms.1 d.1 (bx d.1), ms.2) else (ms.1, sm_set ms.2 d.1 [:: (bx d.1).1]).
rewrite (@foldM_Ok _ _ _ g1); last first.
  move=> ms [ix [[lb ub] st]] Hin.
  have Hf := sm_find_In (sm_wf_uniq H1) Hin.
  have Hi : ix < len by apply: Hblt; rewrite -sm_find_keys Hf.
  rewrite Hpos //= /g1 /=.
  have [l' [u' [st' [[E1 E2 E3] _ Hlu Hst [_ HW _]]]]] := find_bs Hok H1 H2 H3 H4 H5 Hf.
  subst l' u' st'.
  have Ebx : block_ubd W (bx ix).1 ub st = (bx ix).2.
    rewrite /bx /boxat Hf /= /block_ubd.
    have [k' Hk1 Hk2] := block_pos Hok H1 H2 H3 H4 H5 H6 Hp Hf.
    by rewrite modn_small; [case: ltnP => ?; lia|lia].
  have [Hb1 Hb2] := Hbx _ Hi.
  rewrite Ebx.
  have -> : ((bx ix).2 + W - (bx ix).1) %% W = (bx ix).2 - (bx ix).1.
    have -> : (bx ix).2 + W - (bx ix).1 = ((bx ix).2 - (bx ix).1) + W by lia.
    by rewrite modnDr modn_small //; lia.
  by rewrite /wide; case: ifP => _; rewrite -?surjective_pairing.
rewrite /=.
have := @foldl_sm_set2 (nat * (nat * nat * nat)) _ _ fst wide bx (fun i => [:: (bx i).1]) bs
  ([::], [::]) isT isT.
rewrite -/g1; case: (foldl g1 ([::], [::]) bs) => bl se /= [Wb Ws Fb Fs].
have Hslt : forall i, i \in sm_keys sets -> i < len.
  by move=> i Hi; rewrite -(order_mem Hok H2) !mem_cat Hi orbT.
have Hdlt : forall i, i \in sm_keys deps -> i < len.
  by move=> i Hi; rewrite -(order_mem Hok H2) !mem_cat Hi.
rewrite (@foldM_Ok _ _ _ (fun ss d => sm_set ss d.1 [:: (bx d.1).1])); last first.
  by move=> ss [ix s] Hin /=; rewrite Hpos //; apply: Hslt; apply/mapP; exists (ix, s).
have [Ws2 Fs2] := @foldl_sm_set _ _ fst (fun i => [:: (bx i).1]) sets se Ws.
rewrite /=.
set se2 := foldl _ se sets in Ws2 Fs2 *.
rewrite (@foldM_Ok _ _ _ (fun ss d => sm_set ss d.1 [:: (bx d.1).1])); last first.
  by move=> ss [ix s] Hin /=; rewrite Hpos //; apply: Hdlt; apply/mapP; exists (ix, s).
have [Ws3 Fs3] := @foldl_sm_set _ _ fst (fun i => [:: (bx i).1]) deps se2 Ws2.
rewrite /=.
set se3 := foldl _ se2 deps in Ws3 Fs3 *.
have [Hd1 Hd2 Hd3] := keys_disj3 Hok H2.
have Hfb : forall i, sm_find bl i = if (i \in sm_keys bs) && wide i then Some (bx i) else None.
  by move=> i; rewrite Fb.
have Hfs : forall i, sm_find se3 i =
    if (i < len) && ~~ ((i \in sm_keys bs) && wide i) then Some [:: (bx i).1] else None.
  move=> i; rewrite Fs3 Fs2 Fs -(order_mem Hok H2) !mem_cat (perm_mem H2) -!H3.
  case Ed: (i \in sm_keys deps) => /=.
    by have := Hd2 _ Ed; rewrite -H3 => /negbTE ->.
  case Es: (i \in sm_keys sets) => /=.
    by have := Hd3 _ Es; rewrite -H3 => /negbTE ->.
  rewrite -/(sm_keys bs) !negb_and.
  by case: (i \in sm_keys bs) => //=.
have Hkb : forall i, (i \in sm_keys bl) = (i \in sm_keys bs) && wide i.
  by move=> i; rewrite -sm_find_keys Hfb; case: ifP.
have Hks : forall i, (i \in sm_keys se3) = (i < len) && ~~ ((i \in sm_keys bs) && wide i).
  by move=> i; rewrite -sm_find_keys Hfs; case: ifP.
have Hok' : args_ok W len bl 1 se3 [::].
  split=> //.
  - rewrite cats0; apply: uniq_perm; last 2 first.
    + exact: iota_uniq.
    + move=> i; rewrite mem_cat Hkb Hks mem_iota add0n leq0n /=.
      by case Ei: (i \in sm_keys bs) => //=; rewrite ?andbT // (Hblt _ Ei); case: (wide i).
    rewrite cat_uniq !sm_wf_uniq // andbT /=.
    by apply/hasPn => i; rewrite Hks => /andP[_]; rewrite /= Hkb.
  - move=> ix lb ub Hin; have := sm_find_In (sm_wf_uniq Wb) Hin.
    rewrite Hfb; case: ifP => // /andP[/Hblt Hi Hwi] [E]; have := Hbx _ Hi; rewrite E /=.
    by move: Hwi; rewrite /wide E /=; lia.
  - split=> // ix s Hin; have := sm_find_In (sm_wf_uniq Ws3) Hin.
    rewrite Hfs; case: ifP => // /andP[Hi _] [<-].
    by have := Hbx _ Hi; rewrite /values_ok /=; lia.
have [en [vs [-> Hv1 Hv2 Hv3]]] := unit_positions Hok' Hlen.
exists en, vs; split=> // v; rewrite Hv3.
rewrite /described /= andbT; apply/and3P/in_boxP; rewrite /boxof size_map size_iota.
- case=> /eqP Hs /allP HB /allP HS; split=> // i Hi; rewrite nth_map_iota // -/bx.
  case Ei: ((i \in sm_keys bs) && wide i).
    have := HB (i, bx i); rewrite (sm_find_mem (_ : sm_find bl i = Some (bx i))) ?Hfb ?Ei //.
    by move/(_ isT).
  have := HS (i, [:: (bx i).1]).
  rewrite (sm_find_mem (_ : sm_find se3 i = _)) ?Hfs ?Ei ?Hi //.
  move=> /(_ isT); rewrite /= inE => /eqP ->.
  by have [Hb1 _] := Hbx _ Hi; rewrite leqnn.
- case=> Hs HB; split; first exact/eqP.
    apply/allP => -[i [lb ub]] Hin /=; have := sm_find_In (sm_wf_uniq Wb) Hin.
    rewrite Hfb; case: ifP => // /andP[/Hblt Hi _] /Some_inj E.
    by have := HB i Hi; rewrite (nth_map_iota (0,0) bx Hi) E.
  apply/allP => -[i s] Hin /=; have := sm_find_In (sm_wf_uniq Ws3) Hin.
  rewrite Hfs; case: ifP => // /andP[Hi Hn] [<-]; rewrite inE.
  have := HB i Hi; rewrite (nth_map_iota (0,0) bx Hi).
  have Hw : (bx i).2 <= (bx i).1.+1.
    move: Hn; case Eb: (i \in sm_keys bs) => /=.
      by rewrite /wide -leqNgt leq_subLR addn1.
    by rewrite /bx /boxat sm_find_None ?Eb.
  move=> /andP[Ha Hb]; rewrite eqn_leq Ha andbT -ltnS.
  exact: leq_trans Hb Hw.
Qed.

(** ** End state and bad arguments *)

Lemma end_absorbing W it n : bi_end it ->
  iter n (fun m => bind m (bi_step W)) (Ok it) = Ok it.
Proof. by move=> He; elim: n => [|n /= ->] //=; rewrite /bi_step He. Qed.

Lemma zero_length_end W blocks psz sets deps it :
  args_ok W 0 blocks psz sets deps -> mk_biter 0 blocks psz sets deps = Ok it -> bi_end it.
Proof. by move=> Hok; have [uo [bs [p0 [-> _ _ _ _]]]] := mk_biter_ok Hok; case=> <-. Qed.

Lemma empty_range_terminates length blocks psz sets deps ix l u :
  (ix, (l, u)) \in blocks -> u <= l ->
  mk_biter length blocks psz sets deps = Term.
Proof.
move=> Hin Hle; rewrite /mk_biter /initialize_blocks /block_sizes.
suff -> : mapM (fun kb : nat * (nat * nat) =>
          let: (ix, (lbd, ubd)) := kb in
          if ubd <= lbd then Term else Ok (ubd - lbd, ix)) blocks = Term by [].
elim: blocks Hin => [|[ix' [l' u']] b IH] //=; rewrite inE => /orP[/eqP[_ <- <-]|Hin].
  by rewrite Hle.
by case: ifP => //= _; rewrite IH.
Qed.

Lemma package_zero_undefined length blocks sets deps :
  blocks != [::] -> (forall ix l u, (ix, (l, u)) \in blocks -> l < u) ->
  mk_biter length blocks 0 sets deps = Undef.
Proof.
move=> Hne Hlu; rewrite /mk_biter /initialize_blocks /block_sizes.
have -> : mapM (fun kb : nat * (nat * nat) =>
          let: (ix, (lbd, ubd)) := kb in
          if ubd <= lbd then Term else Ok (ubd - lbd, ix)) blocks
   = Ok [seq (kb.2.2 - kb.2.1, kb.1) | kb <- blocks].
  by apply: mapM_Ok => -[ix [l u]] /Hlu /=; rewrite ltnNge => /negbTE ->.
rewrite /=; set L := sort _ _.
have HLm : perm_eq L [seq (kb.2.2 - kb.2.1, kb.1) | kb <- blocks] by rewrite /L perm_sort.
case EL: L => [|[sz ix] L'] //=.
  by move/perm_size: HLm; rewrite EL size_map; case: (blocks) Hne.
by case: sz {EL}.
Qed.

(** A block ending at the top of the word, cut into packages of two: the position wraps. *)
Lemma wrap_never_ends W fuel : 2 < W -> ~~ odd W ->
  exists2 it, mk_biter 1 [:: (0, (0, W.-1))] 2 [::] [::] = Ok it &
              iterate W as_position fuel it = OutOfFuel.
Proof.
move=> HW Hodd.
pose itw x := BIter 1 [:: 0] [::] [::] [:: (0, (0, W.-1, 2))] [::] [::] [:: x] false.
exists (itw 0).
  rewrite /mk_biter /initialize_blocks /block_sizes /= subn0.
  have -> : (W.-1 <= 0) = false by lia.
  rewrite /=; have -> : (if W.-1 <= 2 then W.-1 else 2) = 2.
    by case: leqP => // H; move: Hodd; have -> : W = 3 by lia.
  by [].
suff H : forall fuel x, ~~ odd x -> x < W -> iterate W as_position fuel (itw x) = OutOfFuel.
  by apply: H; lia.
elim=> [|n IH] x Hx HxW //=.
rewrite /as_position /= /bi_step /=.
have Hlt : ((x + 2) %% W < W.-1) && ~~ odd ((x + 2) %% W).
  have [Hl|Hg] := ltnP (x + 2) W.
    rewrite modn_small //.
    have : odd (x + 2) = odd x by rewrite oddD /= addbF.
    by lia.
  have E : x + 2 = W by lia.
  by rewrite E modnn /=; lia.
case/andP: Hlt => Hlt Hev.
rewrite leqNgt Hlt /=.
by rewrite -/(itw _) IH //=; lia.
Qed.
