(** Memory behaviour of the stores: safe below the limit, not safe above. *)
Set Warnings "-notation-overridden,-ambiguous-paths".
From mathcomp Require Import all_ssreflect ssralg ssrnum ssrint zify.
From Verif Require Import Res ResFacts OMap OMapFacts Store StoreSpec TwistProofs StoreProofs FmpzHeap HeapSpec.

Set Implicit Arguments.
Unset Strict Implicit.
Unset Printing Implicit Defensive.

Definition lift (m : store) : ftable := [seq (kn.1, Small kn.2) | kn <- m].

Lemma find_lift m k : ft_find (lift m) k = omap Small (st_find m k).
Proof. by rewrite /ft_find /st_find; elim: m => [|[k' n] m IH] //=; case: ifP => // _; case: ifP. Qed.

Lemma set_lift m k n : ft_set (lift m) k (Small n) = lift (st_set m k n).
Proof. by rewrite /ft_set /st_set; elim: m => [|[k' n'] m IH] //=; case: ifP => _ /=; [rewrite IH | case: ifP]. Qed.

Lemma get_lift m k : ft_get (lift m) k = Small (st_get m k).
Proof. by rewrite /ft_get /st_get find_lift; case: st_find. Qed.

Section Below.
Variable lim : nat.
Notation small := (all (fun kn : key * nat => kn.2 < lim)).

Lemma set_new m k v : small (st_set m k v) -> v < lim.
Proof.
rewrite /st_set; elim: m => [|[k' n] m IH] /=; first by case/andP.
by case: ifP => _ /=; [case/andP=> _ /IH | case: ifP => _ /= /andP[]].
Qed.

Lemma set_down m k v : (forall u, st_find m k = Some u -> u <= v) -> small (st_set m k v) -> small m.
Proof.
rewrite /st_set /st_find; elim: m => [|[k' n] m IH] //=; case: ifP => _ /=.
  by move=> H /andP[-> /(IH H)].
case: ifP => _ /= H; first by case/and3P=> _ -> ->.
by case/andP=> Hv ->; rewrite andbT; exact: leq_ltn_trans (H n erefl) Hv.
Qed.

Lemma add_down m k n : small (st_add m k n) -> small m /\ st_get m k + n < lim.
Proof.
move=> H; split; last exact: set_new H.
by apply: set_down H => u; rewrite /st_get => ->; exact: leq_addr.
Qed.

Lemma entry_down m kn : small (merge_entry m kn) ->
  [/\ small m, kn.2 < lim & forall u, st_find m kn.1 = Some u -> u + kn.2 < lim].
Proof.
rewrite /merge_entry; case E: (st_find m kn.1) => [u|] H.
  have Hs := set_new H; split; [|lia|by move=> _ [<-]].
  by apply: set_down H => u'; rewrite E => -[<-]; exact: leq_addr.
by split; [apply: set_down H => u; rewrite E | exact: set_new H | ].
Qed.

Lemma into_down l m : small (merge_into m l) -> small m.
Proof. by elim: l m => [|kn l IH] m //= /IH/entry_down[]. Qed.

Lemma f_store_small h n v : v < lim -> f_store lim h (Small n) v = Ok (h, Small v).
Proof. by rewrite /f_store => ->. Qed.

Lemma register_ok h m k n : small (register m (k, n)) -> h_register lim h (lift m) k n = Ok (h, lift (register m (k, n))).
Proof.
rewrite /register /h_register find_lift; case E: (st_find m k) => [u|] /= H.
  have [H1 H2] := add_down H; have H3 := set_new H1.
  rewrite f_store_small /=; last by lia.
  by rewrite /f_add /= f_store_small //= set_lift get_lift /= f_store_small //= set_lift.
case: ifP H => _ H.
  have [H1 H2] := add_down H; have H3 := set_new H1.
  by rewrite f_store_small //= /f_copy /= f_store_small //= set_lift /f_add get_lift /= f_store_small //= set_lift.
have H1 := set_new H.
by rewrite f_store_small //= /f_copy /= f_store_small //= set_lift /f_copy /= f_store_small //= set_lift.
Qed.

Lemma extract_ok h m k n : small (merge_entry m (k, n)) -> h_extract lim h (lift m) k n = Ok (h, lift (merge_entry m (k, n))).
Proof.
move=> H; have [H1 H2 H3] := entry_down H; move: H; rewrite /h_extract f_store_small //= find_lift /merge_entry /=.
case E: (st_find m k) => [u|] /= H; last by rewrite set_lift.
by rewrite /f_add /= f_store_small ?(H3 u) //= set_lift.
Qed.

Lemma clear_lift h m : h_clear h (lift m) = Ok h.
Proof. by rewrite /h_clear; elim: m. Qed.

Lemma insert_lift h m : h_insert h (lift m) = Ok m.
Proof. by rewrite /h_insert; elim: m => [|[k n] m IH] //=; rewrite IH. Qed.

Lemma flush_ok h l m : small (merge_into m l) ->
  foldM (h_flush_entry lim) (h, lift m) (lift l) = Ok (h, lift (merge_into m l)).
Proof.
elim: l m => [|kn l IH] m //= H; rewrite find_lift.
have [H1 H2 H3] := entry_down (into_down H).
have E : merge_entry m kn = st_set m kn.1 (if st_find m kn.1 is Some u then u + kn.2 else kn.2).
  by rewrite /merge_entry; case: st_find.
case Ef: (st_find m kn.1) => [u|] /=; rewrite Ef in E.
  by rewrite /f_add /= f_store_small ?H3 //= set_lift -E; exact: IH.
by rewrite set_lift -E; exact: IH.
Qed.

Definition lift_state (s : plain) : hstate := HState [::] [seq lift m | m <- s.1] (lift s.2).

Lemma nth_lift ms t : nth [::] [seq lift m | m <- ms] t = lift (nth [::] ms t).
Proof. by elim: ms t => [|m ms IH] [|t] //=; rewrite nth_nil. Qed.

Lemma set_nth_lift ms t m : set_nth [::] [seq lift m | m <- ms] t (lift m) = [seq lift m | m <- set_nth [::] ms t m].
Proof.
elim: ms t => [|m' ms IH] [|t] //=; last by rewrite IH.
by congr (_ :: _); elim: t => [|t IHt] //=; rewrite IHt.
Qed.

Lemma small_nth ms t m : all (all (fun kn : key * nat => kn.2 < lim)) (set_nth [::] ms t m) -> small m.
Proof.
move=> /(all_nthP [::])/(_ t); rewrite size_set_nth nth_set_nth /= eqxx; apply; exact: leq_maxl.
Qed.

Lemma step_below s op : below lim (plain_step s op).1 ->
  h_step lim (lift_state s) op = Ok (lift_state (plain_step s op).1, (plain_step s op).2).
Proof.
case: s => ms st; case: op => [t k n|t||t k n|t|t] /andP[/= H1 H2]; rewrite ?nth_lift.
- by rewrite register_ok ?(small_nth H1) //= set_nth_lift.
- by rewrite flush_ok //= clear_lift /= /lift_state /= -set_nth_lift.
- by rewrite insert_lift /= clear_lift.
- by rewrite extract_ok ?(small_nth H1) //= set_nth_lift.
- by rewrite insert_lift.
- by rewrite clear_lift /= /lift_state /= -set_nth_lift.
Qed.

Lemma run_below ops s : stays_below lim s ops ->
  exists s', h_run lim (lift_state s) ops = Ok (s', plain_out s ops).
Proof.
elim: ops s => [|op ops IH] s; first by exists (lift_state s).
case/andP=> H1 /IH[s' H2]; exists s'.
have -> : h_run lim (lift_state s) (op :: ops) =
    (so <- h_step lim (lift_state s) op ;; sos <- h_run lim so.1 ops ;; Ok (sos.1, so.2 :: sos.2)) by [].
rewrite step_below //.
change (bind (h_run lim (lift_state (plain_step s op).1) ops) (fun sos => Ok (sos.1, (plain_step s op).2 :: sos.2)) =
        Ok (s', plain_out s (op :: ops))).
by rewrite H2.
Qed.
End Below.

(** ** Above the limit *)
Section Above.
Variable lim : nat.

Lemma ft_get_set (m : ftable) k x : om_wf key_lt m -> ft_get (ft_set m k x) k = x.
Proof. by move=> Hm; rewrite /ft_get /ft_find /ft_set (om_find_set key_total) // eqxx. Qed.

Lemma register_big h m k n : om_wf key_lt m -> lim <= n -> ft_find m k = None -> h_register lim h m k n = Undef.
Proof.
move=> Hm Hn Hk; rewrite /h_register /f_store ltnNge Hn /= Hk.
rewrite /f_copy /= nth_rcons ltnn eqxx /= /f_store ltnNge Hn /= nth_rcons ltnn eqxx /=.
case: ifP => _.
  by rewrite ft_get_set // /f_add /= nth_set_nth /= eqxx.
rewrite /f_copy /= nth_set_nth /= size_rcons eqn_leq ltnn andbF nth_rcons size_rcons ltnS leqnn nth_rcons ltnn eqxx /=.
rewrite /f_store ltnNge Hn /=.
set h1 := rcons (rcons h _) _; set h2 := set_nth None h1 _ None.
have S2 : size h2 = (size h).+2 by rewrite /h2 size_set_nth /h1 !size_rcons; lia.
rewrite nth_rcons ltnn eqxx /=.
set h3 := rcons h2 _; set h4 := set_nth None h3 _ None.
have E : nth None h4 (size h) = Some n.
  rewrite /h4 nth_set_nth /= S2 (_ : size h == _ = false); last by apply/eqP; lia.
  rewrite /h3 nth_rcons S2 (_ : _ < _ = true); last by lia.
  rewrite /h2 nth_set_nth /= ?size_rcons (_ : size h == _ = false); last by apply/eqP; lia.
  by rewrite /h1 nth_rcons size_rcons ltnS leqnn nth_rcons ltnn eqxx.
by rewrite E /= nth_set_nth /= eqxx.
Qed.

Lemma insert_dangling h (m : ftable) k p : om_wf key_lt m -> ft_find m k = Some (Big p) -> nth None h p = None ->
  h_insert h m = Undef.
Proof.
move=> Hm Hk Hp; rewrite /h_insert; elim: m Hm Hk => [|[k' x] m IH] //= Hm.
have [Hm' _] := om_wf_cons key_total Hm; rewrite /ft_find /=; case: ifP => _ Hf.
  by case: x {Hm} => [n|q] /=; [|case: (nth None h q) => [n|] //=]; rewrite IH.
by case: ifP Hf => // _ [->]; rewrite /= Hp.
Qed.

Lemma extract_big h m k n : om_wf key_lt m -> lim <= n -> ft_find m k = None ->
  exists h' m', h_extract lim h m k n = Ok (h', m') /\ h_insert h' m' = Undef.
Proof.
move=> Hm Hn Hk; rewrite /h_extract /f_store ltnNge Hn /= Hk nth_rcons ltnn eqxx /=.
do 2!eexists; split; first reflexivity.
apply: (@insert_dangling _ _ k (size h)).
- exact: (om_wf_set key_total).
- by rewrite /ft_find /ft_set (om_find_set key_total) // eqxx.
- by rewrite nth_set_nth /= eqxx.
Qed.

Lemma run_cons s op ops : h_run lim s (op :: ops) =
  (so <- h_step lim s op ;; sos <- h_run lim so.1 ops ;; Ok (sos.1, so.2 :: sos.2)).
Proof. by []. Qed.

Lemma bind_Ok A B (x : A) (f : A -> res B) : bind (Ok x) f = f x.
Proof. by []. Qed.

Lemma nth_same (ms : seq ftable) t m : nth [::] (set_nth [::] ms t m) t = m.
Proof. by rewrite nth_set_nth /= eqxx. Qed.

(** A count that reached the limit in a worker store. *)
Lemma sum_big t k n : n < lim -> lim <= n + n -> twist k != k ->
  h_run lim h_start [:: Register t k n; Register t k n; FlushTo t; FlushStatic] = Undef.
Proof.
move=> H1 H2 Htk.
set tk := twist k in Htk.
have Lk : key_lt k k = false by exact: (st_irr key_total).
have Lt : key_lt tk tk = false by exact: (st_irr key_total).
have Hn : (n + n < lim) = false by apply/negbTE; rewrite -leqNgt.
have stage (x y : key) : key_lt x y -> key_lt y x = false -> (x, y) = (k, tk) \/ (x, y) = (tk, k) ->
    key_lt x x = false -> key_lt y y = false ->
    h_run lim h_start [:: Register t k n; Register t k n; FlushTo t; FlushStatic] = Undef.
  move=> L1 L2 Exy Lx Ly.
  have E1 : h_register lim [::] [::] k n = Ok ([::], [:: (x, Small n); (y, Small n)]).
    have -> : h_register lim [::] [::] k n = Ok ([::], lift (register [::] (k, n))).
      by apply: (@register_ok lim [::] [::]); rewrite /register -/tk /= (negbTE Htk) /st_set /=; do 2?case: ifP => _ /=; rewrite H1.
    rewrite /register -/tk /= (negbTE Htk) /st_set /=.
    by case: Exy => -[<- <-]; rewrite ?L1 ?L2.
  have E2 : exists a b, h_register lim [::] [:: (x, Small n); (y, Small n)] k n =
      Ok ([:: Some (n + n); Some (n + n)], [:: (x, Big a); (y, Big b)]) /\ ((a, b) = (0, 1) \/ (a, b) = (1, 0)).
    rewrite /h_register f_store_small // {1}/bind -/tk.
    case: Exy => -[Ex Ey]; [exists 0, 1 | exists 1, 0]; rewrite -Ex -Ey /ft_get /ft_find /ft_set /= ?L1 ?L2 ?Lx ?Ly /=.
      by rewrite /f_add /= /f_store; do 4!rewrite ?Hn ?L1 ?L2 ?Lx ?Ly /=; split=> //; left.
    by rewrite /f_add /= /f_store; do 4!rewrite ?Hn ?L1 ?L2 ?Lx ?Ly /=; split=> //; right.
  have [a [b [E2' Hab]]] := E2.
  rewrite run_cons /h_start /h_step nth_nil E1 bind_Ok [_.1]/= run_cons /h_step nth_same E2' bind_Ok.
  rewrite [_.1]/= run_cons /h_step nth_same.
  have -> : foldM (h_flush_entry lim) ([:: Some (n + n); Some (n + n)], [::]) [:: (x, Big a); (y, Big b)] =
      Ok ([:: Some (n + n); Some (n + n)], [:: (x, Big a); (y, Big b)]).
    by rewrite /= /ft_find /ft_set /= !L1 /= ?L1.
  rewrite bind_Ok [_.1]/= [_.2]/=.
  have -> : h_clear [:: Some (n + n); Some (n + n)] [:: (x, Big a); (y, Big b)] = Ok [:: None; None].
    by case: Hab => -[-> ->].
  rewrite ?bind_Ok [_.1]/= run_cons /h_step.
  have -> : h_insert [:: None; None] [:: (x, Big a); (y, Big b)] = Undef by case: Hab => -[-> ->].
  by [].
case L1: (key_lt k tk); first by apply: (stage k tk) => //; [exact: (st_asym key_total) | left].
have L2 : key_lt tk k by apply/negP => /negP/negbTE L2; move/eqP: Htk; apply; exact: (st_eq key_total).
by apply: (stage tk k) => //; right.
Qed.
End Above.

(** ** The tables stay ordered *)
Section Reach.
Variable lim : nat.
Definition ft_ok (m : ftable) : bool := om_wf key_lt m.
Definition h_ok (s : hstate) : bool := all ft_ok (h_stores s) && ft_ok (h_static s).

Lemma ok_nth ms t : all ft_ok ms -> ft_ok (nth [::] ms t).
Proof.
by move=> /(all_nthP [::]) H; case: (ltnP t (size ms)) => Ht; [exact: H | rewrite nth_default].
Qed.

Lemma ok_set ms t m : all ft_ok ms -> ft_ok m -> all ft_ok (set_nth [::] ms t m).
Proof.
move=> H Hm; apply/(all_nthP [::]) => i _; rewrite nth_set_nth /=; case: eqP => // _; exact: ok_nth.
Qed.

Lemma ok_put m k x : ft_ok m -> ft_ok (ft_set m k x).
Proof. exact: (om_wf_set key_total). Qed.

Lemma step_tables s op s' out : h_ok s -> h_step lim s op = Ok (s', out) -> h_ok s'.
Proof.
case: s => h ms st /andP[/= Hms Hst]; case: op => [t k n|t||t k n|t|t] /= H.
- have [[h' m'] H1 [<- _]] := bind_Ok_inv H; rewrite /h_ok /= Hst andbT; apply: ok_set => //.
  have := ok_nth t Hms; move: (nth [::] ms t) H1 => m; rewrite /h_register => H1 Hm.
  have [[h1 d] _ {}H1] := bind_Ok_inv H1; case: (ft_find m k) H1 => [x|] H1.
    have [[h2 y] _ {}H1] := bind_Ok_inv H1; have [[h3 z] _ {}H1] := bind_Ok_inv H1.
    by have [h4 _ [_ <-]] := bind_Ok_inv H1; do 2!apply: ok_put.
  have [[h2 y] _ {}H1] := bind_Ok_inv H1; have [h3 _ {}H1] := bind_Ok_inv H1; case: ifP H1 => _ H1.
    by have [[h4 z] _ {}H1] := bind_Ok_inv H1; have [h5 _ [_ <-]] := bind_Ok_inv H1; do 2!apply: ok_put.
  have [[h4 z] _ {}H1] := bind_Ok_inv H1; have [h5 _ {}H1] := bind_Ok_inv H1.
  by have [h6 _ {}H1] := bind_Ok_inv H1; have [h7 _ [_ <-]] := bind_Ok_inv H1; do 2!apply: ok_put.
- have [[h' st'] H1 {}H] := bind_Ok_inv H; have [h2 _ [<- _]] := bind_Ok_inv H.
  rewrite /h_ok /= ok_set //=; move: (nth [::] ms t) H1 {H} => l.
  elim: l h st Hst => [|kx l IH] h st Hst /=; first by case=> _ <-.
  case: (ft_find st kx.1) => [y|] H1; last by apply: IH H1; exact: ok_put.
  have [[h3 z] H2 H3] := bind_Ok_inv H1; have [[h4 w] _ [_ E]] := bind_Ok_inv H2.
  by apply: IH H3; rewrite -E; exact: ok_put.
- have [out' _ {}H] := bind_Ok_inv H; have [h' _ [<- _]] := bind_Ok_inv H; by rewrite /h_ok /= Hms.
- have [[h' m'] H1 [<- _]] := bind_Ok_inv H; rewrite /h_ok /= Hst andbT; apply: ok_set => //.
  have := ok_nth t Hms; move: (nth [::] ms t) H1 => m; rewrite /h_extract => H1 Hm.
  have [[h1 d] _ {}H1] := bind_Ok_inv H1; case: (ft_find m k) H1 => [x|] H1.
    have [[h2 y] _ {}H1] := bind_Ok_inv H1; have [h3 _ [_ <-]] := bind_Ok_inv H1; exact: ok_put.
  have [h3 _ [_ <-]] := bind_Ok_inv H1; exact: ok_put.
- have [out' _ [<- _]] := bind_Ok_inv H; by rewrite /h_ok /= Hms.
- have [h' _ [<- _]] := bind_Ok_inv H; by rewrite /h_ok /= Hst andbT; exact: ok_set.
Qed.

Lemma run_tables ops s s' outs : h_ok s -> h_run lim s ops = Ok (s', outs) -> h_ok s'.
Proof.
elim: ops s s' outs => [|op ops IH] s s' outs Hs; first by case=> <- _.
rewrite run_cons => H; have [[s1 o1] H1 {}H] := bind_Ok_inv H; have [[s2 o2] H2 [<- _]] := bind_Ok_inv H.
by apply: IH H2; exact: step_tables H1.
Qed.

Lemma run_cat ops ops' s : h_run lim s (ops ++ ops') =
  (so <- h_run lim s ops ;; so' <- h_run lim so.1 ops' ;; Ok (so'.1, so.2 ++ so'.2)).
Proof.
elim: ops s => [|op ops IH] s.
  by rewrite /=; case: (h_run _ _ _) => [[s' o]| | |].
rewrite cat_cons !run_cons; case: (h_step _ _ _) => [[s1 o1]| | |] //=; rewrite IH.
case: (h_run _ _ _) => [[s2 o2]| | |] //=; by case: (h_run _ _ _) => [[s3 o3]| | |].
Qed.

Section State.
Variables (ops : seq sop) (s : hstate) (outs : seq (seq (key * nat))) (t : nat) (k : key) (n : nat).
Hypothesis Hrun : h_run lim h_start ops = Ok (s, outs).
Hypothesis Hk : ft_find (nth [::] (h_stores s) t) k = None.
Hypothesis Hn : lim <= n.

Lemma reach_ok : om_wf key_lt (nth [::] (h_stores s) t).
Proof. by have /andP[H _] := run_tables (isT : h_ok h_start) Hrun; exact: ok_nth. Qed.

Lemma register_undef : h_run lim h_start (ops ++ [:: Register t k n]) = Undef.
Proof.
rewrite run_cat Hrun bind_Ok run_cons; case: s Hk reach_ok => h ms st /= H1 H2.
by rewrite (register_big h H2 Hn H1).
Qed.

Lemma extract_undef : h_run lim h_start (ops ++ [:: Extract t k n; Insert t]) = Undef.
Proof.
rewrite run_cat Hrun bind_Ok run_cons; case: s Hk reach_ok => h ms st /= H1 H2.
have [h' [m' [-> E]]] := extract_big h H2 Hn H1.
by rewrite /= nth_set_nth /= eqxx E.
Qed.
End State.
End Reach.
