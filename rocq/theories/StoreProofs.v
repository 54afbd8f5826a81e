(** Proofs about keys and stores. *)
Set Warnings "-notation-overridden,-ambiguous-paths".
From mathcomp Require Import all_ssreflect ssralg ssrnum ssrint zify.
From Verif Require Import OMap OMapFacts Store StoreSpec TwistProofs.

Set Implicit Arguments.
Unset Strict Implicit.
Unset Printing Implicit Defensive.

(** ** The order on keys *)
Lemma key_total : strict_total (key_lt : key -> key -> bool).
Proof.
have H1 := vec_total ltn_total; have H2 := vec_total int_total; split.
- by move=> x; rewrite /key_lt (st_irr H1) eqxx (st_irr H2).
- move=> [y1 y2] [x1 x2] [z1 z2]; rewrite /key_lt /=.
  case: (stP H1 x1 y1) => [Hxy|<-|Hxy] // Hx; case: (stP H1 _ z1) => [Hyz|E|Hyz] // Hy.
  + by rewrite (st_tr H1 Hxy Hyz).
  + by rewrite -E Hxy.
  + exact: (st_tr H2 Hx Hy).
- move=> [x1 x2] [y1 y2]; rewrite /key_lt /= xpair_eqE negb_and.
  rewrite (eq_sym y1); case: (stP H1 x1 y1) => //= _.
  by case: H2 => _ _; apply.
Qed.

Lemma key_order :
  [/\ irreflexive key_lt, transitive key_lt & forall k k', ~~ key_lt k k' && ~~ key_lt k' k = (k == k')].
Proof.
split; [exact: st_irr key_total|exact: st_tr key_total|].
by move=> k k'; case: (stP key_total k k').
Qed.

(** ** Lookups *)
Lemma st_find_set s k n k' : is_map s ->
  st_find (st_set s k n) k' = if k' == k then Some n else st_find s k'.
Proof. exact: (om_find_set key_total). Qed.

Lemma is_map_set s k n : is_map s -> is_map (st_set s k n).
Proof. exact: (om_wf_set key_total). Qed.

Lemma map_ext s s' : is_map s -> is_map s' -> (forall k, st_find s k = st_find s' k) -> s = s'.
Proof. exact: (om_ext key_total). Qed.

Lemma st_find_add s k n k' : is_map s ->
  st_find (st_add s k n) k' = if k' == k then Some (st_get s k + n) else st_find s k'.
Proof. exact: st_find_set. Qed.

(** ** Registration *)
Definition twist_closed (s : store) : Prop := forall k, isSome (st_find s k) = isSome (st_find s (twist k)).

Definition credit1 (kn : key * nat) (k : key) : option nat :=
  if (kn.1 == k) || (twist kn.1 == k)
  then Some ((if kn.1 == k then kn.2 else 0) + (if twist kn.1 == k then kn.2 else 0)) else None.

Lemma register_ok s kn : is_map s -> twist_closed s ->
  [/\ is_map (register s kn), twist_closed (register s kn) &
      forall k, st_find (register s kn) k = add_opt (st_find s k) (credit1 kn k)].
Proof.
move: kn => [k0 n] Hs Hc.
have Hm : is_map (register s (k0, n)).
  by rewrite /register; case: st_find => [m|]; [|case: ifP => _]; rewrite ?/st_add !is_map_set.
have Hf k : st_find (register s (k0, n)) k = add_opt (st_find s k) (credit1 (k0, n) k).
  rewrite /register /credit1 /= (eq_sym k0 k) (eq_sym (twist k0)) (eq_sym (twist k0)).
  case E: (st_find s k0) => [m|].
    have [m' E'] : exists m', st_find s (twist k0) = Some m'.
      by have := Hc k0; rewrite E; case: (st_find s (twist k0)) => // m' _; exists m'.
    rewrite st_find_add ?is_map_set // /st_get !st_find_set //.
    rewrite (eq_sym (twist k0)).
    case: (k =P k0) => [->|Nk] /=; rewrite ?E.
      case: eqP => [_|_] /=; congr Some; lia.
    case: (k =P twist k0) => [Ek|Nt] /=; last by case: st_find.
    have -> : k0 == twist k0 = false by rewrite -Ek eq_sym; apply/eqP.
    by rewrite Ek E' /=; congr Some; lia.
  have E' : st_find s (twist k0) = None.
    by have := Hc k0; rewrite E; case: (st_find s (twist k0)).
  case: (k0 =P twist k0) => [Et|Nt].
    rewrite st_find_add ?is_map_set // /st_get !st_find_set // eqxx -Et.
    case: (k =P k0) => [->|Nk] /=; rewrite ?E //=; by case: st_find.
  rewrite !st_find_set ?is_map_set //.
  case: (k =P twist k0) => [->|Nk] /=.
    rewrite E' orbT; have -> : twist k0 == k0 = false by apply/eqP => /esym.
    by rewrite add0n.
  case: (k =P k0) => [->|Nk0] /=; first by rewrite E /= addn0.
  by case: st_find.
split=> // k; rewrite !Hf /credit1 /=.
have -> : (k0 == twist k) = (twist k0 == k) by apply/eqP/eqP => [->|<-]; rewrite twistK.
have -> : (twist k0 == twist k) = (k0 == k).
  by apply/eqP/eqP => [E|->//]; rewrite -(twistK k0) E twistK.
rewrite orbC; have := Hc k; case: (_ || _); by case: st_find; case: st_find.
Qed.

Lemma map_cons_filter (a : pred (key * nat)) x s :
  sumn [seq kn.2 | kn <- x :: s & a kn] = (if a x then x.2 else 0) + sumn [seq kn.2 | kn <- s & a kn].
Proof. by rewrite /=; case: (a x). Qed.

Lemma credit_cons kn kns k : credit (kn :: kns) k = add_opt (credit1 kn k) (credit kns k).
Proof.
rewrite /credit /credit1 [has _ (_ :: _)]/= !map_cons_filter.
have H0 : has (fun kn => (kn.1 == k) || (twist kn.1 == k)) kns = false ->
    sumn [seq kn.2 | kn <- kns & kn.1 == k] = 0 /\ sumn [seq kn.2 | kn <- kns & twist kn.1 == k] = 0.
  move=> H; rewrite !(eq_in_filter (a2 := pred0)) ?filter_pred0 //.
  + by move=> x Hx; apply: contraFF H => Hk; apply/hasP; exists x; rewrite // Hk orbT.
  + by move=> x Hx; apply: contraFF H => Hk; apply/hasP; exists x; rewrite // Hk.
move: H0; move: (sumn _) (sumn _) (has _ _) => A B [] H0 /=.
  by case: (kn.1 == k); case: (twist kn.1 == k) => //=; congr Some; lia.
have [-> ->] := H0 erefl.
by case: (kn.1 == k); case: (twist kn.1 == k) => //=; congr Some; lia.
Qed.

Lemma add_optA : associative add_opt.
Proof. by move=> [a|] [b|] [c|] //=; rewrite addnA. Qed.
Lemma add_optC : commutative add_opt.
Proof. by move=> [a|] [b|] //=; rewrite addnC. Qed.
Lemma add_opt0 a : add_opt a None = a.
Proof. by case: a. Qed.

Lemma registered kns s : is_map s -> twist_closed s ->
  is_map (foldl register s kns) /\
  forall k, st_find (foldl register s kns) k = add_opt (st_find s k) (credit kns k).
Proof.
elim: kns s => [|kn kns IH] s Hs Hc /=; first by split=> // k; rewrite add_opt0.
have [H1 H2 H3] := register_ok kn Hs Hc; have [H4 H5] := IH _ H1 H2.
by split=> // k; rewrite H5 H3 credit_cons add_optA.
Qed.

Lemma register_all kns :
  is_map (foldl register [::] kns) /\ forall k, st_find (foldl register [::] kns) k = credit kns k.
Proof. by have [|H1 H2] := @registered kns [::] isT => // k. Qed.

(** ** Merging *)
Lemma merge_entry_ok s kn : is_map s ->
  is_map (merge_entry s kn) /\
  forall k, st_find (merge_entry s kn) k = if k == kn.1 then add_opt (st_find s k) (Some kn.2) else st_find s k.
Proof.
move=> Hs; rewrite /merge_entry; case E: (st_find s kn.1) => [m|]; rewrite is_map_set //; split=> // k;
  rewrite st_find_set //; by case: eqP => // ->; rewrite E.
Qed.

Lemma mergeE s s' : is_map s -> is_map s' ->
  is_map (merge_into s s') /\
  forall k, st_find (merge_into s s') k = add_opt (st_find s k) (st_find s' k).
Proof.
elim: s' s => [|[k0 n] s' IH] s Hs Hs'; first by split=> // k; rewrite add_opt0.
have [Hw Ha] := om_wf_cons key_total Hs'.
have [H1 H2] := merge_entry_ok (k0, n) Hs; have [H3 H4] := IH _ H1 Hw.
split=> // k; rewrite /merge_into /= -/(merge_into _ _) H4 H2 /= eq_sym /st_find /=.
case: (stP key_total k0 k) => [H|H|H] //; first by subst k; rewrite (om_find_lt key_total Ha) add_opt0.
rewrite [om_find key_lt s' k](om_find_lt key_total) ?add_opt0 //.
by apply/allP => x /(allP Ha); apply: (st_tr key_total H).
Qed.

Lemma flush_ok sh s b : is_map (sh_store sh) -> is_set (sh_record sh) -> is_map s ->
  let: (sh', s') := flush_to_static sh s b in
  [/\ s' = [::], is_map (sh_store sh') /\ is_set (sh_record sh'),
      forall k, st_find (sh_store sh') k = add_opt (st_find (sh_store sh) k) (st_find s k) &
      forall b', (b' \in sh_record sh') = (b' == b) || (b' \in sh_record sh)].
Proof.
move=> Hm Hr Hs /=; have [H1 H2] := mergeE Hm Hs; split=> //.
  by split=> //; apply: (os_wf_insert block_total).
by move=> b'; rewrite (mem_os_insert block_total).
Qed.

(** ** The shared store *)
Definition shared_ok (acc : seq (store * block)) (sh : shared) : Prop :=
  collects acc (sh_record sh, sh_store sh).

Lemma sum_opt_rcons l x : sum_opt (rcons l x) = add_opt (sum_opt l) x.
Proof. by rewrite /sum_opt; elim: l => [|y l /= ->] /=; rewrite ?add_opt0 ?add_optA. Qed.

Lemma run_collects ops acc sh : shared_ok acc sh -> all is_map (handed_in ops) ->
  let: (outs, sh') := run_shared ops sh in
  let: (closed, last) := segments ops acc in
  [/\ size outs = size closed,
      forall i, i < size outs -> collects (nth [::] closed i) (nth ([::], [::]) outs i) &
      collects last (sh_record sh', sh_store sh')].
Proof.
elim: ops acc sh => [|[s b|] ops IH] acc sh Hsh Hall //=.
- move: Hall => /= /andP[Hs Hall].
  apply: IH => //; case: Hsh => /= H1 H2 H3 H4.
  have [_ [Hm Hr] Hf Hb] := flush_ok b H2 H1 Hs; split=> //=.
  + by move=> b'; rewrite Hb H3 map_rcons mem_rcons inE.
  + by move=> k; rewrite Hf H4 map_rcons sum_opt_rcons.
- have := IH [::] shared_empty; case: (run_shared ops _) => outs sh'; case: (segments ops _) => closed last.
  case=> // H1 H2 H3; split=> //=; first by rewrite H1.
  by case=> [_|i] //=; rewrite ltnS; apply: H2.
Qed.

Lemma shared_history ops : all is_map (handed_in ops) ->
  let: (outs, sh) := run_shared ops shared_empty in
  let: (closed, last) := segments ops [::] in
  [/\ size outs = size closed,
      forall i, i < size outs -> collects (nth [::] closed i) (nth ([::], [::]) outs i) &
      collects last (sh_record sh, sh_store sh)].
Proof. by move=> H; apply: run_collects. Qed.

Lemma count_merge s s' k : is_map s -> is_map s' ->
  count_of (merge_into s s') k = count_of s k + count_of s' k.
Proof.
by move=> H1 H2; rewrite /count_of (mergeE H1 H2).2; case: st_find => [a|]; case: st_find => [b|] //=; rewrite addn0.
Qed.

Lemma conserve ops sh k : is_map (sh_store sh) -> all is_map (handed_in ops) ->
  let: (outs, sh') := run_shared ops sh in
  sumn [seq count_of out.2 k | out <- outs] + count_of (sh_store sh') k =
  count_of (sh_store sh) k + sumn [seq count_of s k | s <- handed_in ops].
Proof.
elim: ops sh => [|[s b|] ops IH] sh Hsh Hall //=; first by rewrite add0n addn0.
- move: Hall => /= /andP[Hs Hall]; have [Hm _] := mergeE Hsh Hs.
  have := IH (flush_to_static sh s b).1 Hm Hall; case: (run_shared _ _) => outs sh' ->.
  by rewrite /= count_merge //; lia.
- have := IH shared_empty isT Hall; case: (run_shared _ _) => outs sh' /=.
  by rewrite -addnA => ->.
Qed.

Lemma conserve0 ops k : all is_map (handed_in ops) ->
  let: (outs, sh) := run_shared ops shared_empty in
  sumn [seq count_of out.2 k | out <- outs] + count_of (sh_store sh) k =
  sumn [seq count_of s k | s <- handed_in ops].
Proof. by move=> H; apply: conserve. Qed.
