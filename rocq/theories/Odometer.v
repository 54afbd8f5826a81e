(** Proof infrastructure: a generic odometer on position vectors.  Digit [ix] runs through
    [vals ix e], where [e] gives the digits; only slower digits may matter. *)
Set Warnings "-notation-overridden,-ambiguous-paths".
From mathcomp Require Import all_ssreflect zify.

Set Implicit Arguments.
Unset Strict Implicit.
Unset Printing Implicit Defensive.

(** [chain_to f l e]: [f] maps every element of [l] to its successor and the last to [e]. *)
Fixpoint chain_to {T : Type} (f : T -> option T) (l : seq T) (e : option T) : Prop :=
  if l is x :: l' then f x = (if l' is y :: _ then Some y else e) /\ chain_to f l' e
  else True.

Lemma chain_to_cat T (f : T -> option T) l1 l2 e :
  chain_to f l1 (if l2 is y :: _ then Some y else e) -> chain_to f l2 e ->
  chain_to f (l1 ++ l2) e.
Proof.
elim: l1 => [|x l1 IH] //= [Hx Hl1] Hl2; split; last exact: IH.
by rewrite Hx; case: l1 {IH Hx Hl1}.
Qed.

Section Odometer.
Variables (vals : nat -> (nat -> nat) -> seq nat).
Variables (nxt : nat -> (nat -> nat) -> nat -> option nat).
Variable (first : nat -> nat).

Fixpoint closed (order : seq nat) : Prop :=
  if order is ix :: rest then
    (forall e e' : nat -> nat, {in rest, e =1 e'} ->
       vals ix e = vals ix e' /\ nxt ix e =1 nxt ix e') /\ closed rest
  else True.

Fixpoint gstep (order : seq nat) (p : seq nat) : seq nat * bool :=
  if order is ix :: rest then
    if nxt ix (nth 0 p) (nth 0 p ix) is Some y then (set_nth 0 p ix y, false)
    else gstep rest (set_nth 0 p ix (first ix))
  else (p, true).

Fixpoint penum (order : seq nat) (p0 : seq nat) : seq (seq nat) :=
  if order is ix :: rest then
    flatten [seq [seq set_nth 0 p ix x | x <- vals ix (nth 0 p)] | p <- penum rest p0]
  else [:: p0].

Lemma gstep_comm order ix y p : closed order -> ix \notin order ->
  gstep order (set_nth 0 p ix y) = (set_nth 0 (gstep order p).1 ix y, (gstep order p).2).
Proof.
elim: order p => [|jx rest IH] p //= [Hc Hcl]; rewrite inE negb_or => /andP[/negbTE Hne Hni].
have E : {in rest, nth 0 (set_nth 0 p ix y) =1 nth 0 p}.
  move=> j Hj; rewrite nth_set_nth /=; case: eqP => // Hjx.
  by rewrite -Hjx Hj in Hni.
have [_ ->] := Hc _ _ E.
rewrite nth_set_nth /= eq_sym Hne.
case: (nxt _ _ _) => [z|] /=.
  by rewrite set_set_nth Hne.
by rewrite set_set_nth Hne IH.
Qed.

(** Enumerated positions differ from the start only at [order]. *)
Lemma penum_outside order p0 p j : p \in penum order p0 -> j \notin order ->
  nth 0 p j = nth 0 p0 j.
Proof.
elim: order p => [|ix rest IH] p /=; first by rewrite inE => /eqP ->.
move=> /flatten_mapP[p' Hp' /mapP[x Hx ->]]; rewrite inE negb_or => /andP[/negbTE Hne Hni].
by rewrite nth_set_nth /= Hne IH.
Qed.

Lemma penum_size order p0 p : all (fun ix => ix < size p0) order ->
  p \in penum order p0 -> size p = size p0.
Proof.
elim: order p => [|ix rest IH] p /=; first by rewrite inE => _ /eqP ->.
move=> /andP[Hix Hr] /flatten_mapP[p' Hp' /mapP[x Hx ->]].
by rewrite size_set_nth (IH _ Hr Hp'); apply/maxn_idPr.
Qed.

Lemma mem_penum order p0 p : uniq order -> closed order ->
  all (fun ix => ix < size p0) order ->
  reflect [/\ size p = size p0, forall j, j \notin order -> nth 0 p j = nth 0 p0 j &
           {in order, forall ix, nth 0 p ix \in vals ix (nth 0 p)}]
          (p \in penum order p0).
Proof.
elim: order p => [|ix rest IH] p /=.
  move=> _ _ _; rewrite inE; apply: (iffP eqP) => [->|[Hs Hj _]]; first by split.
  by apply: (@eq_from_nth _ 0) => // i _; apply: Hj.
move=> /andP[Hni Hu] [Hc Hcl] /andP[Hix Hr]; apply: (iffP flatten_mapP).
  case=> p' Hp' /mapP[x Hx ->].
  have /(IH _ Hu Hcl Hr)[Hs Hj Hv] := Hp'.
  have E : {in rest, nth 0 (set_nth 0 p' ix x) =1 nth 0 p'}.
    move=> j Hjr; rewrite nth_set_nth /=; case: eqP => // Hjx.
    by rewrite -Hjx Hjr in Hni.
  split.
  - by rewrite size_set_nth Hs; apply/maxn_idPr.
  - move=> j; rewrite inE negb_or => /andP[/negbTE Hne Hjr].
    by rewrite nth_set_nth /= Hne; apply: Hj.
  - move=> j; rewrite inE => /orP[/eqP ->|Hjr].
      by have [-> _] := Hc _ _ E; rewrite nth_set_nth /= eqxx.
    rewrite (E _ Hjr).
    suff -> : vals j (nth 0 (set_nth 0 p' ix x)) = vals j (nth 0 p') by apply: Hv.
    elim: rest Hcl E Hjr Hni {Hj Hv Hu IH Hc Hr Hp'} => [|k rest IHr] //= [Hk Hcl] E.
    rewrite !inE negb_or => Hjk /andP[Hik Hir].
    have E' : {in rest, nth 0 (set_nth 0 p' ix x) =1 nth 0 p'}.
      by move=> i Hi; apply: E; rewrite inE Hi orbT.
    case/orP: Hjk => [/eqP ->|Hjr]; first by have [] := Hk _ _ E'.
    exact: IHr.
case=> Hs Hj Hv.
exists (set_nth 0 p ix (nth 0 p0 ix)).
  have E : {in rest, nth 0 (set_nth 0 p ix (nth 0 p0 ix)) =1 nth 0 p}.
    move=> j Hjr; rewrite nth_set_nth /=; case: eqP => // Hjx.
    by rewrite -Hjx Hjr in Hni.
  apply/(IH _ Hu Hcl Hr); split.
  - by rewrite size_set_nth Hs; apply/maxn_idPr.
  - move=> j Hjr; rewrite nth_set_nth /=; case: eqP => [->//|/eqP Hne].
    by apply: Hj; rewrite inE negb_or Hne.
  - move=> j Hjr; rewrite (E _ Hjr).
    suff -> : vals j (nth 0 (set_nth 0 p ix (nth 0 p0 ix))) = vals j (nth 0 p).
      by apply: Hv; rewrite inE Hjr orbT.
    elim: rest Hcl E Hjr Hni {Hj Hv Hu IH Hc Hr} => [|k rest IHr] //= [Hk Hcl] E.
    rewrite !inE negb_or => Hjk /andP[Hik Hir].
    have E' : {in rest, nth 0 (set_nth 0 p ix (nth 0 p0 ix)) =1 nth 0 p}.
      by move=> i Hi; apply: E; rewrite inE Hi orbT.
    case/orP: Hjk => [/eqP ->|Hjr]; first by have [] := Hk _ _ E'.
    exact: IHr.
have E : {in rest, nth 0 (set_nth 0 p ix (nth 0 p0 ix)) =1 nth 0 p}.
  move=> j Hjr; rewrite nth_set_nth /=; case: eqP => // Hjx.
  by rewrite -Hjx Hjr in Hni.
apply/mapP; exists (nth 0 p ix).
  by have [-> _] := Hc _ _ E; apply: Hv; rewrite inE eqxx.
rewrite set_set_nth eqxx.
apply: (@eq_from_nth _ 0).
  by rewrite size_set_nth; apply/esym/maxn_idPr; rewrite Hs.
by move=> i _; rewrite nth_set_nth /=; case: eqP => [->|].
Qed.

Lemma uniq_penum order p0 : uniq order -> all (fun ix => ix < size p0) order ->
  (forall ix e, uniq (vals ix e)) -> uniq (penum order p0).
Proof.
move=> Hu Ha Hv; elim: order Hu Ha => [|ix rest IH] //= /andP[Hni Hu] /andP[Hix Ha].
have := IH Hu Ha.
have Hsz := @penum_size rest p0 _ Ha.
have Hout : forall p, p \in penum rest p0 -> nth 0 p ix = nth 0 p0 ix.
  by move=> p Hp; apply: penum_outside Hp Hni.
elim: (penum rest p0) Hsz Hout => [|p l IHl] //= Hsz Hout /andP[Hp Hl].
rewrite cat_uniq; apply/and3P; split.
- rewrite map_inj_uniq // => x y /(congr1 (fun s => nth 0 s ix)).
  by rewrite !nth_set_nth /= eqxx.
- apply/hasPn => s /flatten_mapP[p' Hp' /mapP[x Hx ->]]; apply/negP => /mapP[y Hy Hxy].
  suff Hpp : p' = p by rewrite -Hpp Hp' in Hp.
  have Hs1 : size p' = size p0 by apply: Hsz; rewrite inE Hp' orbT.
  have Hs2 : size p = size p0 by apply: Hsz; rewrite inE eqxx.
  apply: (@eq_from_nth _ 0); first by rewrite Hs1 Hs2.
  move=> i _; case: (i =P ix) => [->|/eqP/negbTE Hne].
    by rewrite !Hout // inE ?eqxx // Hp' orbT.
  by move/(congr1 (fun s => nth 0 s i)): Hxy; rewrite !nth_set_nth /= Hne.
- by apply: IHl => // q Hq; [apply: Hsz|apply: Hout]; rewrite inE Hq orbT.
Qed.

(** [good e ix]: the values of digit [ix] form a [nxt]-chain starting at [first ix]. *)
Definition good (ix : nat) (e : nat -> nat) : Prop :=
  chain_to (nxt ix e) (vals ix e) None /\
  (if vals ix e is x :: _ then x = first ix else False).

Fixpoint all_good (order : seq nat) (p0 : seq nat) : Prop :=
  if order is ix :: rest then
    (forall p, p \in penum rest p0 -> good ix (nth 0 p)) /\ all_good rest p0
  else True.

Definition onext (order : seq nat) (p : seq nat) : option (seq nat) :=
  if (gstep order p).2 then None else Some (gstep order p).1.

Lemma penum_chain order p0 : uniq order -> closed order -> all_good order p0 ->
  chain_to (onext order) (penum order p0) None /\ penum order p0 <> [::].
Proof.
elim: order => [|ix rest IH] //= /andP[Hni Hu] [Hc Hcl] [Hg Hag].
have {IH} [] := IH Hu Hcl Hag.
elim: (penum rest p0) Hg => [|p l IHl] //= Hg [Hn Hl] _; split; last first.
  have /Hg[_] : p \in p :: l by rewrite inE eqxx.
  by case: (vals ix (nth 0 p)).
have /Hg[Hgc Hgf] : p \in p :: l by rewrite inE eqxx.
have {}Hg : forall q, q \in l -> good ix (nth 0 q).
  by move=> q Hq; apply: Hg; rewrite inE Hq orbT.
have Hcx : forall y, nxt ix (nth 0 (set_nth 0 p ix y)) =1 nxt ix (nth 0 p).
  move=> y; apply: (proj2 (Hc _ _ _)) => j Hj; rewrite nth_set_nth /=.
  by case: eqP => // Hjx; rewrite -Hjx Hj in Hni.
have Hstep : forall y, gstep (ix :: rest) (set_nth 0 p ix y) =
    if nxt ix (nth 0 p) y is Some z then (set_nth 0 p ix z, false)
    else (set_nth 0 (gstep rest p).1 ix (first ix), (gstep rest p).2).
  move=> y /=; rewrite Hcx nth_set_nth /= eqxx.
  case: (nxt _ _ _) => [z|]; first by rewrite set_set_nth eqxx.
  by rewrite set_set_nth eqxx gstep_comm.
apply: chain_to_cat.
- set nextl := (if flatten _ is _ :: _ then _ else _).
  have Hnext : onext rest p = None /\ l = [::] \/
     exists q l', [/\ l = q :: l', onext rest p = Some q & nextl = Some (set_nth 0 q ix (first ix))].
    rewrite Hn /nextl; case: (l) Hg => [|q l'] Hg; first by left.
    right; exists q, l'; split=> //=.
    have /Hg[_] : q \in q :: l' by rewrite inE eqxx.
    by case: (vals ix (nth 0 q)) => //= x s ->.
  have He : forall y, nxt ix (nth 0 p) y = None ->
     onext (ix :: rest) (set_nth 0 p ix y) = nextl.
    move=> y Hy; rewrite /onext Hstep Hy.
    case: Hnext => [[Ho Hlnil]|[q [l' [Hlq Ho ->]]]].
      rewrite /nextl Hlnil /=; move: Ho; rewrite /onext.
      by case: (gstep rest p) => a [].
    move: Ho; rewrite /onext; case: (gstep rest p) => a [] //= [->] //.
  have Hs : forall y z, nxt ix (nth 0 p) y = Some z ->
     onext (ix :: rest) (set_nth 0 p ix y) = Some (set_nth 0 p ix z).
    by move=> y z Hy; rewrite /onext Hstep Hy.
  elim: (vals ix (nth 0 p)) Hgc {Hgf} => [|x s IHs] //= [Hx Hxs].
  split; last exact: IHs.
  by case: s Hx {IHs Hxs} => [|x' s'] Hx /=; [apply: He|apply: Hs].
- case: l Hg Hl IHl {Hn} => [|q l'] Hg Hl IHl //=.
  by have [] := IHl Hg Hl.
Qed.

Lemma penum_head order p0 : all_good order p0 ->
  all (fun ix => ix < size p0) order -> {in order, forall ix, nth 0 p0 ix = first ix} ->
  exists l, penum order p0 = p0 :: l.
Proof.
elim: order => [|ix rest IH] /=; first by exists [::].
move=> [Hg Hag] /andP[Hix Hr] Hf.
have [|l El] := IH Hag Hr; first by move=> j Hj; apply: Hf; rewrite inE Hj orbT.
have /Hg[_] : p0 \in penum rest p0 by rewrite El inE eqxx.
rewrite El /=; case: (vals ix (nth 0 p0)) => //= x s ->.
have -> : set_nth 0 p0 ix (first ix) = p0; last by eexists.
apply: (@eq_from_nth _ 0); first by rewrite size_set_nth; apply/maxn_idPr.
move=> i _; rewrite nth_set_nth /=; case: eqP => [->|//].
by rewrite Hf // inE eqxx.
Qed.

End Odometer.
