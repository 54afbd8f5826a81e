(** Proofs about the start of hycu-mpi: as far as the worker pools go, an execution with the start is one
    in which all pools are there from the beginning. *)
Set Warnings "-notation-overridden,-ambiguous-paths".
From mathcomp Require Import all_ssreflect ssralg ssrnum ssrint poly finalg zify.
From Verif Require Import Res FinField OMap Store StoreSpec Text Pool Standalone StandaloneSpec Mpi MpiSpec MpiTheorems MpiRounds Config Worker WorkerSpec
  Main MainSpec MainProofs Boot.

Set Implicit Arguments.
Unset Strict Implicit.
Unset Printing Implicit Defensive.

(** ** The master does not look into the other processes *)
Section Graft.
Variables (b : nat -> bool) (q : nat -> proc).

Definition graft_node (P : mstate) (i : nat) : node :=
  if b i then get_node P i else nset_proc (get_node P i) (q i).
Definition graft (P : mstate) : mstate := mset_nodes P (mkseq (graft_node P) (size (m_nodes P))).

Lemma graft_size P : size (m_nodes (graft P)) = size (m_nodes P).
Proof. by rewrite size_mkseq. Qed.
Lemma graft_get P i : i < size (m_nodes P) -> get_node (graft P) i = graft_node P i.
Proof. by move=> H; rewrite /get_node nth_mkseq. Qed.

Lemma mstate_eq P Q : m_nodes P = m_nodes Q -> mset_nodes P [::] = mset_nodes Q [::] -> P = Q.
Proof. by case: P Q => [? ? ? ? ? ? ? ? ? ? ?] [? ? ? ? ? ? ? ? ? ? ?] /= -> [] -> -> -> -> -> -> -> -> -> ->. Qed.

Lemma nodes_eq (xs ys : seq node) : size xs = size ys -> (forall i, i < size xs -> nth node0 xs i = nth node0 ys i) -> xs = ys.
Proof. exact: eq_from_nth. Qed.

(** Changes of a node that keep or do not mention its process. *)
Lemma graft_set P i w w' : i < size (m_nodes P) ->
  (if b i then w' = w else w' = nset_proc w (q i)) -> set_node (graft P) i w' = graft (set_node P i w).
Proof.
move=> Hi Hw; apply: mstate_eq => //=; apply: nodes_eq.
  by rewrite ?size_mkseq !size_set_nth ?size_mkseq.
move=> j; rewrite size_set_nth size_mkseq (maxn_idPr Hi) => Hj.
rewrite nth_set_nth /= [RHS]nth_mkseq ?size_set_nth ?(maxn_idPr Hi) // /graft_node /get_node /= nth_set_nth /=.
case: (j =P i) => [->|_]; first by case: (b i) Hw => ->.
by rewrite nth_mkseq.
Qed.

Hypothesis b0 : b 0.

Lemma graft_get0 P : 0 < size (m_nodes P) -> get_node (graft P) 0 = get_node P 0.
Proof. by move=> H; rewrite graft_get // /graft_node b0. Qed.
Lemma graft_set0 P w : 0 < size (m_nodes P) -> set_node (graft P) 0 w = graft (set_node P 0 w).
Proof. by move=> H; apply: graft_set => //; rewrite b0. Qed.
Lemma graft_post P i m : i < size (m_nodes P) ->
  set_node (graft P) i (post m (get_node (graft P) i)) = graft (set_node P i (post m (get_node P i))).
Proof. by move=> H; apply: graft_set => //; rewrite graft_get // /graft_node; case: (b i). Qed.
Lemma graft_out P i x : i < size (m_nodes P) ->
  set_node (graft P) i (nset_out (get_node (graft P) i) x) = graft (set_node P i (nset_out (get_node P i) x)).
Proof. by move=> H; apply: graft_set => //; rewrite graft_get // /graft_node; case: (b i). Qed.
Lemma graft_n_out P i : n_out (get_node (graft P) i) = n_out (get_node P i).
Proof.
case: (ltnP i (size (m_nodes P))) => H; first by rewrite graft_get // /graft_node; case: (b i).
by rewrite /get_node !nth_default ?size_mkseq.
Qed.
Lemma out_range P i x l : n_out (get_node P i) = x :: l -> i < size (m_nodes P).
Proof. by move=> H; rewrite ltnNge; apply/negP => Hi; move: H; rewrite /get_node nth_default. Qed.

Definition lift (r : res mstate) : res mstate := P <- r ;; Ok (graft P).

Lemma graft_mfinished i P bl : mfinished i (graft P) bl = lift (mfinished i P bl).
Proof. by rewrite /mfinished /=; case: ifP. Qed.
Lemma graft_fold i bs P : foldM (mfinished i) (graft P) bs = lift (foldM (mfinished i) P bs).
Proof.
elim: bs P => [|x bs IH] P //=; rewrite graft_mfinished /lift.
by case: (mfinished i P x) => //= P'; rewrite IH.
Qed.

Lemma graft_all P w f : 0 < size (m_nodes P) -> (forall x y, f (nset_proc x y) = nset_proc (f x) y) ->
  mset_nodes (graft P) (w :: [seq f x | x <- behead (m_nodes (graft P))]) =
  graft (mset_nodes P (w :: [seq f x | x <- behead (m_nodes P)])).
Proof.
move=> H Hf; apply: mstate_eq => //=; apply: nodes_eq.
  by rewrite size_mkseq /= !size_map !size_behead size_mkseq.
move=> j; rewrite [size _]/= size_map size_behead size_mkseq => Hj.
have Hj' : j < size (m_nodes P) by lia.
rewrite [RHS]nth_mkseq /graft_node /get_node /= ?size_map ?size_behead //.
case: j Hj Hj' => [|j] Hj Hj' /=; first by rewrite b0.
rewrite !(nth_map node0) ?size_behead ?size_mkseq ?nth_behead -?subn1; try lia.
rewrite nth_mkseq // /graft_node /get_node; case: (b _) => //; by rewrite Hf.
Qed.

Definition hand (i : nat) (opencl : bool) (x : block) (s : mstate) : res mstate :=
  let s := mset_handed s (rcons (m_handed s) (i, (m_dir s, x))) in
  let w := get_node s i in
  if i == 0 then
    pt <- pool_assign (n_proc w) x opencl ;;
    Ok (mgoto (set_node s 0 (nset_proc w pt.1)) (QNotify pt.2 x))
  else Ok (mgoto (minsert i x (set_node s i (post (MAssign opencl x) w))) QNext).

Lemma graft_hand P i opencl x : i < size (m_nodes P) -> hand i opencl x (graft P) = lift (hand i opencl x P).
Proof.
move=> Hi; rewrite /hand; set P' := mset_handed P _.
rewrite -[mset_handed (graft P) _]/(graft P'); have Hi' : i < size (m_nodes P') by [].
case: eqP Hi' => [->|_] Hi' /=; last by rewrite graft_post.
by rewrite graft_get0 //; case: (pool_assign _ _ _) => //= pt; rewrite graft_set0.
Qed.

Definition queues_ok (P : mstate) : bool := all (fun i => i < size (m_nodes P)) (m_cpu P ++ m_ocl P).

Lemma graft_step P save : 0 < size (m_nodes P) -> queues_ok P -> master_step (graft P) save = lift (master_step P save).
Proof.
move=> H HQ; rewrite /master_step graft_size.
have -> : m_pc (graft P) = m_pc P by [].
case Epc: (m_pc P) => [|x|x|ix k|ix k|ix x|ix x|x|x|t x|k|ix k|ix k|ix k r st|ix k r|k|t|t|t|]; rewrite ?graft_get0 //.
- by rewrite /=; case: (m_prog P) => [|[d c|x|] l].
- by rewrite /=; case: (m_store P) => [[d r]|].
- case: eqP => _.
    rewrite /lift; case: (flush_finished _) => p bs; rewrite graft_set0 // graft_fold /lift.
    by case: (foldM _ _ _).
  by case: ltnP => Hi; rewrite /lift /= ?graft_post.
- rewrite graft_n_out; case E: (n_out _) => [|[nc no|r st|bs] out] //.
  by rewrite graft_out ?(out_range E) // graft_fold /lift; case: (foldM _ _ _).
- case: eqP => _; first by rewrite /lift; case: (flush_ready _) => p [nc no]; rewrite graft_set0.
  by case: ltnP => Hi; rewrite /lift /= ?graft_post.
- rewrite graft_n_out; case E: (n_out _) => [|[nc no|r st|bs] out] //.
  by rewrite graft_out ?(out_range E).
- have E1 : m_ocl (graft P) = m_ocl P by []. have E2 : m_cpu (graft P) = m_cpu P by [].
  rewrite E1 E2; move: HQ; rewrite /queues_ok all_cat.
  case: (m_ocl P) => [|i l] /=; first case: (m_cpu P) => [|i l] //= /andP[/andP[Hi _] _].
    exact: (@graft_hand (mset_cpu P l) i false x Hi).
  by case/andP=> _ /andP[Hi _]; exact: (@graft_hand (mset_ocl P l) i true x Hi).
- by rewrite /lift graft_set0.
- case: eqP => _.
    have -> : m_store (graft P) = m_store P by [].
    rewrite /lift; case: (m_store P) => [_|] //; case: (flush_global _) => p [r st]; by rewrite graft_set0.
  by case: ltnP => Hi; rewrite /lift /= ?graft_post.
- rewrite graft_n_out; case E: (n_out _) => [|[nc no|r st|bs] out] //.
  by rewrite graft_out ?(out_range E).
- case: k Epc => [x|d c|] Epc //; rewrite /lift [bind _ _]/=; last by rewrite graft_all.
  set P' := mset_store P _; have H' : 0 < size (m_nodes P') by [].
  have E : get_node (graft P') 0 = get_node P' 0 by exact: graft_get0.
  rewrite -[mset_store (graft P) _]/(graft P') E; set w0 := nset_proc _ _.
  by have := @graft_all P' w0 (post (MConfig c)) H' (fun _ _ => erefl); move=> ->.
- by case: ifP => _ //; rewrite /lift /= graft_set0.
- by rewrite /lift /= graft_set0.
- by case: (t_phase _).
Qed.
End Graft.

(** ** The idle queues hold numbers of processes *)
Definition same_shape (P P' : mstate) : Prop :=
  [/\ size (m_nodes P') = size (m_nodes P), m_cpu P' = m_cpu P & m_ocl P' = m_ocl P].

Lemma shape_fold i bs P P' : foldM (mfinished i) P bs = Ok P' -> same_shape P P'.
Proof.
elim: bs P => [|x bs IH] P /=; first by case=> <-.
rewrite /mfinished; case: ifP => //= _ /IH[H1 H2 H3]; split=> //.
Qed.

Lemma shape_ok P P' : same_shape P P' -> queues_ok P -> queues_ok P'.
Proof. by case=> E1 E2 E3; rewrite /queues_ok E1 E2 E3. Qed.

Lemma shape_set P i w : i < size (m_nodes P) -> same_shape P (set_node P i w).
Proof. by move=> H; split=> //; rewrite /= size_set_nth; apply/maxn_idPr. Qed.

Lemma queue_up_ok i nc no P : i < size (m_nodes P) -> queues_ok P -> queues_ok (queue_up i nc no P).
Proof. by move=> Hi; rewrite /queues_ok /= !all_cat !all_nseq Hi !orbT !andbT. Qed.

Lemma master_keeps P save P' : 0 < size (m_nodes P) -> queues_ok P -> master_step P save = Ok P' ->
  size (m_nodes P') = size (m_nodes P) /\ queues_ok P'.
Proof.
move=> H HQ.
have same Q : same_shape P Q -> size (m_nodes Q) = size (m_nodes P) /\ queues_ok Q by move=> HS; split; [case: HS | exact: shape_ok HQ].
have hands Q i opencl x : size (m_nodes Q) = size (m_nodes P) -> i < size (m_nodes P) ->
    queues_ok Q -> hand i opencl x Q = Ok P' -> size (m_nodes P') = size (m_nodes P) /\ queues_ok P'.
  move=> E Hi HQ'; rewrite -E in Hi *; rewrite /hand; set Q' := mset_handed Q _.
  case: eqP => _; first case: (pool_assign _ _ _) => //= pt.
    by case=> <-; have [F1 F2 F3] := @shape_set Q 0 (nset_proc (get_node Q' i) pt.1) (leq_ltn_trans (leq0n i) Hi); split;
      [exact: F1 | exact: (shape_ok (And3 F1 F2 F3) HQ')].
  by case=> <-; have [F1 F2 F3] := @shape_set Q i (post (MAssign opencl x) (get_node Q' i)) Hi; split;
      [exact: F1 | exact: (shape_ok (And3 F1 F2 F3) HQ')].
rewrite /master_step.
case: (m_pc P) => [|x|x|ix k|ix k|ix x|ix x|x|x|t x|k|ix k|ix k|ix k r st|ix k r|k|t|t|t|].
- by case: (m_prog P) => [|[d c|x|] l] [<-].
- by case=> <-.
- by case: (m_store P) => [[d r]|] // [<-].
- case: eqP => _.
    case: (flush_finished _) => p bs; case E: (foldM _ _ _) => [Q| | |] //= [<-]; apply: same.
    have [E1 E2 E3] := shape_fold E; have [F1 F2 F3] := shape_set (nset_proc (get_node P 0) p) H.
    by split; rewrite /= ?E1 ?E2 ?E3.
  by case: ltnP => Hi [<-] //; apply: same; exact: (shape_set _ Hi).
- case E: (n_out _) => [|[nc no|r st|bs] out]; [by case=> <-|by case=> <-|by case=> <-|].
  case F: (foldM _ _ _) => [Q| | |] //= [<-]; apply: same; have [E1 E2 E3] := shape_fold F.
  by have [F1 F2 F3] := shape_set (nset_out (get_node P ix) out) (out_range E); split; rewrite /= ?E1 ?E2 ?E3.
- case: eqP => _.
    case: (flush_ready _) => p [nc no] [<-]; have [F1 F2 F3] := shape_set (nset_proc (get_node P 0) p) H.
    split=> //; apply: (@queue_up_ok 0 nc no (set_node P 0 _)); rewrite ?F1 //; exact: (shape_ok (shape_set _ H)).
  by case: ltnP => Hi [<-] //; apply: same; exact: (shape_set _ Hi).
- case E: (n_out _) => [|[nc no|r st|bs] out]; [by case=> <-| |by case=> <-|by case=> <-].
  case=> <-; have Hi := out_range E; have [F1 F2 F3] := shape_set (nset_out (get_node P ix) out) Hi.
  split=> //; apply: (@queue_up_ok ix nc no (set_node P ix _)); rewrite ?F1 //; exact: (shape_ok (shape_set _ Hi)).
- by case=> <-.
- move: (HQ); rewrite /queues_ok all_cat; case E: (m_ocl P) => [|i l] /=.
    case E': (m_cpu P) => [|i l] //= /andP[/andP[Hi A] _].
    by apply: (hands (mset_cpu P l) i false x (erefl _) Hi); rewrite /queues_ok /= E cats0.
  by case/andP=> A /andP[Hi B]; apply: (hands (mset_ocl P l) i true x (erefl _) Hi); rewrite /queues_ok /= all_cat A.
- by case=> <-; apply: same; have [F1 F2 F3] := shape_set (nset_proc (get_node P 0) (notify (n_proc (get_node P 0)) t)) H.
- by case=> <-.
- case: eqP => _.
    case: (m_store P) => [_|]; last by case=> <-.
    by case: (flush_global _) => p [r st] [<-]; apply: same; exact: (shape_set _ H).
  by case: ltnP => Hi [<-] //; apply: same; exact: (shape_set _ Hi).
- case E: (n_out _) => [|[nc no|r st|bs] out]; [by case=> <-|by case=> <-| |by case=> <-].
  by case=> <-; apply: same; exact: (shape_set _ (out_range E)).
- by case=> <-.
- by case=> <-.
- case: k => [x|d c|] [<-] //; apply: same; split=> //=; rewrite size_map size_behead; lia.
- by case: ifP => _ [<-] //; apply: same; exact: (shape_set _ H).
- by case=> <-; apply: same; exact: (shape_set _ H).
- by case: (t_phase _) => [||||b c|b|] [<-].
- by case=> <-.
Qed.

(** ** Invariant of the start *)
Section Start.
Variable contrib : nat -> block -> store.
Variables (waits : bool) (machine : nat -> nat * nat) (a : arguments) (o : outcome) (n : nat) (fs : seq file).
Hypothesis Hn : 0 < n.

Local Notation bstep := (bstep contrib waits machine a o).
Local Notation brun := (brun contrib waits machine a o).

Definition calls_of : seq cmd := if o is Ran _ calls _ then calls else [::].
Definition kinds_at (i : nat) : seq bool := spark_kinds (machine i).1 (machine i).2 (a_threads a) (a_per_gpu a).
Definition started (s : bstate) (i : nat) : bool := l_pool (get_locals s i) != None.
Definition full (s : bstate) : mstate := graft (started s) (fun i => spark (kinds_at i)) (b_pools s).

Definition known (i : nat) (l : locals) : Prop :=
  [/\ l_store l = if 0 < l_pos l then Some (a_store a) else None,
      l_threads l = if 1 < l_pos l then Some (a_threads a) else None,
      l_per_gpu l = if 2 < l_pos l then Some (a_per_gpu a) else None, l_pos l <= 3 &
      l_pool l = None \/ l_pos l = 3 /\ l_pool l = Some (a_store a, kinds_at i)].

Definition sent_by (x : mboot) : nat :=
  match x with BMain | BBack _ => 0 | BCast k => k | BHold k => k.+1 | BSpark | BRun => 3 end.
Definition pos_ok (x : mboot) : bool :=
  match x with BCast k | BHold k => (k < 3) | _ => true end.
Definition pos_outcome (x : mboot) : Prop :=
  match x with BMain => True | BBack k => o = Refused k | _ => if o is Ran _ _ _ then True else False end.

Record binv (s : bstate) : Prop := BInv {
  b_size : size (b_locals s) = n;
  b_nodes : size (m_nodes (b_pools s)) = n;
  b_values : b_sent s = take (sent_by (b_pos s)) (values a);
  b_place : pos_ok (b_pos s) /\ pos_outcome (b_pos s);
  b_known : forall i, i < n -> known i (get_locals s i);
  b_master : l_pos (get_locals s 0) = 3 /\ started s 0 = (if b_pos s is BRun then true else false);
  b_behind : forall i, 0 < i < n -> l_pos (get_locals s i) <= sent_by (b_pos s);
  b_queues : queues_ok (b_pools s);
  b_full : exists acts, mrun contrib (mstart (mkseq kinds_at n) fs calls_of) acts = Ok (full s) }.

Lemma start_inv : binv (bstart a o n fs).
Proof.
have Hl i : get_locals (bstart a o n fs) i = if i == 0 then Locals 3 (Some (a_store a)) (Some (a_threads a)) (Some (a_per_gpu a)) None else locals0.
  by rewrite /get_locals /=; case: i => //= i; rewrite nth_nseq if_same.
have Hst i : started (bstart a o n fs) i = false by rewrite /started Hl; case: (i).
split.
- by rewrite /= size_nseq prednK.
- by rewrite /= size_map size_nseq.
- by [].
- by [].
- by move=> i _; rewrite Hl; case: eqP => _; split=> //; left.
- by rewrite Hl Hst.
- by move=> [|i] //; rewrite Hl.
- by [].
exists [::]; congr Ok; apply: mstate_eq => //.
apply: nodes_eq; first by rewrite !size_map ?size_mkseq ?size_iota ?size_map ?size_nseq.
move=> i; rewrite size_map size_mkseq => Hi.
rewrite (nth_map [::]) ?size_mkseq // nth_mkseq // [RHS]nth_mkseq /= ?size_map ?size_nseq // /graft_node Hst.
by rewrite /get_node /= (nth_map [::]) ?size_nseq.
Qed.

Lemma get_set_locals s i l j : get_locals (set_locals s i l) j = if j == i then l else get_locals s j.
Proof. by rewrite /get_locals /= nth_set_nth /=. Qed.

Lemma graft_eq b b' q q' P P' : mset_nodes P [::] = mset_nodes P' [::] -> size (m_nodes P) = size (m_nodes P') ->
  (forall i, i < size (m_nodes P) -> graft_node b q P i = graft_node b' q' P' i) -> graft b q P = graft b' q' P'.
Proof.
move=> E1 E2 E3; apply: mstate_eq.
  by apply: nodes_eq; rewrite !size_mkseq // => i Hi; rewrite !nth_mkseq -?E2 // E3.
by case: P P' E1 {E2 E3} => [? ? ? ? ? ? ? ? ? ? ?] [? ? ? ? ? ? ? ? ? ? ?].
Qed.

Lemma full_started s s' : b_pools s = b_pools s' -> started s =1 started s' -> full s = full s'.
Proof. by rewrite /full => <- E; apply: graft_eq => // i _; rewrite /graft_node E. Qed.

(** A pool is made. *)
Lemma make_pool_full s i s' : size (m_nodes (b_pools s)) = n -> i < n -> known i (get_locals s i) -> ~~ started s i ->
  make_pool machine s i = Ok s' ->
  [/\ full s' = full s, a_store a = 0, l_pos (get_locals s i) = 3,
      s' = set_locals (set_pools s (b_pools s')) i
        (Locals 3 (Some (a_store a)) (Some (a_threads a)) (Some (a_per_gpu a)) (Some (a_store a, kinds_at i))) &
      b_pools s' = set_node (b_pools s) i (nset_proc (get_node (b_pools s) i) (spark (kinds_at i)))].
Proof.
move=> Hsz Hi [K1 K2 K3 K4 K5] Hns; rewrite /make_pool.
have [E3|] := eqVneq (l_pos (get_locals s i)) 3; last first.
  move=> Hp; have -> : l_per_gpu (get_locals s i) = None by rewrite K3 (_ : 2 < _ = false) //; lia.
  by case: (l_store _) => [[|?]|] //; case: (l_threads _).
rewrite E3 /= in K1 K2 K3; rewrite K1 K2 K3 E3; case Ea: (a_store a) => [|//] [<-]; split=> //.
apply: graft_eq => //=; first by rewrite size_set_nth (maxn_idPr _) ?Hsz.
move=> j; rewrite size_set_nth (maxn_idPr _) ?Hsz // => Hj.
rewrite /graft_node /started get_set_locals /get_node /= nth_set_nth /=; case: (j =P i) => [->|_] //=.
by move: Hns; rewrite /started => /negbTE ->.
Qed.

(** Steps that leave the pools alone and start no pool. *)
Lemma quiet_inv s s' : binv s -> b_pools s' = b_pools s -> size (b_locals s') = n ->
  b_sent s' = take (sent_by (b_pos s')) (values a) -> pos_ok (b_pos s') -> pos_outcome (b_pos s') ->
  (forall i, i < n -> known i (get_locals s' i)) -> (forall i, l_pool (get_locals s' i) = l_pool (get_locals s i)) ->
  l_pos (get_locals s' 0) = 3 -> (if b_pos s is BRun then true else false) = (if b_pos s' is BRun then true else false) ->
  (forall i, 0 < i < n -> l_pos (get_locals s' i) <= sent_by (b_pos s')) -> binv s'.
Proof.
move=> HI Ep H1 H2 H3 H4 H5 H6 H7 H8 H9; have Est : started s' =1 started s by move=> i; rewrite /started H6.
split=> //; rewrite ?Ep; try exact: (b_nodes HI); try exact: (b_queues HI).
- by split=> //; rewrite Est (proj2 (b_master HI)).
by have [acts Ha] := b_full HI; exists acts; rewrite Ha; congr Ok; apply: full_started.
Qed.

(** Steps of the pools. *)
Lemma pools_inv s m acts : binv s -> size (m_nodes m) = n -> queues_ok m ->
  mrun contrib (full s) acts = Ok (full (set_pools s m)) -> binv (set_pools s m).
Proof.
move=> HI H1 H2 H4; case: (HI) => G1 G2 G3 G4 G5 G6 G7 G8 [acts' G10]; split=> //.
by exists (acts' ++ acts); rewrite (mrun_cat _ G10).
Qed.

Lemma started_pools s m : started (set_pools s m) = started s.
Proof. by []. Qed.

Lemma size_set_locals s i l : i < size (b_locals s) -> size (b_locals (set_locals s i l)) = size (b_locals s).
Proof. by move=> H; rewrite /= size_set_nth; apply/maxn_idPr. Qed.

Lemma size_set_node P i w : i < size (m_nodes P) -> size (m_nodes (set_node P i w)) = size (m_nodes P).
Proof. by move=> H; rewrite /= size_set_nth; apply/maxn_idPr. Qed.

Lemma master_inv s save s' : binv s -> boot_master waits machine a o s save = Ok s' -> binv s'.
Proof.
move=> HI; have [P1 P2] := b_place HI; have HV := b_values HI; have Hb := b_behind HI; have [M1 M2] := b_master HI.
rewrite /boot_master; case Epos: (b_pos s) => [|k|k|||k]; rewrite Epos in P1 P2 HV Hb M2.
- case=> <-; apply: (quiet_inv HI); [by []|exact: (b_size HI)| | | |exact: (b_known HI)|by []|by []| |].
  + by rewrite /= HV; case: (o).
  + by move=> /=; case: (o).
  + by move=> /=; case: (o).
  + by rewrite Epos /=; case: (o).
  by move=> i Hi; apply: leq_trans (Hb i Hi) _; case: (o).
- have [v Ev] : exists v, vget (values a) k = Ok v by move: P1; rewrite /pos_ok; case: k {P2 HV Hb M2 Epos} => [|[|[|]]] // _; eexists.
  rewrite Ev /= => -[<-]; apply: (quiet_inv HI); [by []|exact: (b_size HI)| |by []|by []|exact: (b_known HI)|by []|by []|by rewrite Epos|].
    by rewrite /= HV; move: Ev P1; case: (k) => [|[|[|]]] //= [<-].
  by move=> i Hi; apply: leq_trans (Hb i Hi) _ => /=.
- case: ifP => _ [<-] //; apply: (quiet_inv HI); [by []|exact: (b_size HI)| | | |exact: (b_known HI)|by []|by []|by rewrite Epos /=; case: ifP|].
  + by rewrite /= HV /=; case: (k) P1 => [|[|[|]]].
  + by move=> /=; case: (k) P1 => [|[|[|]]].
  + by move=> /=; case: (k) P1 => [|[|[|]]].
  by move=> i Hi; apply: leq_trans (Hb i Hi) _ => /=; case: (k) P1 => [|[|[|]]].
- have Hk := b_known HI Hn; have Hns : ~~ started s 0 by rewrite M2.
  case Em: (make_pool _ _ _) => [s1| | |] //= [<-].
  have [F1 F2 F3 F4 F5] := make_pool_full (b_nodes HI) Hn Hk Hns Em.
  have Hl j : get_locals (bgoto s1 BRun) j = if j == 0 then Locals 3 (Some (a_store a)) (Some (a_threads a)) (Some (a_per_gpu a))
      (Some (a_store a, kinds_at 0)) else get_locals s j by rewrite F4 /bgoto /=; exact: get_set_locals.
  split.
  + by rewrite /= F4 /= size_set_nth (b_size HI); apply/maxn_idPr.
  + by rewrite /= F5 size_set_node (b_nodes HI).
  + by rewrite /= F4.
  + by [].
  + move=> j Hj; rewrite Hl; case: eqP => [->|_]; last exact: (b_known HI).
    by split=> //; right.
  + by rewrite /started Hl.
  + by move=> j Hj; rewrite Hl; case: eqP => // _; exact: (Hb j Hj).
  + rewrite [b_pools _]/= F5; apply: shape_ok (b_queues HI); apply: shape_set; by rewrite (b_nodes HI).
  have [acts Ha] := b_full HI; exists acts; rewrite Ha -F1; congr Ok; exact: full_started.
- have [acts Ha] := b_full HI.
  case Em: (master_step _ _) => [m| | |] //= [<-].
  have H0 : 0 < size (m_nodes (b_pools s)) by rewrite (b_nodes HI).
  have [K1 K2] := master_keeps H0 (b_queues HI) Em.
  apply: (pools_inv (acts := [:: AMaster save]) HI) => //; first by rewrite K1 (b_nodes HI).
  by rewrite /mrun /= graft_step ?M2 ?(b_queues HI) // Em.
- by case=> <-.
Qed.

Lemma full_get s i : binv s -> i < n -> started s i -> get_node (full s) i = get_node (b_pools s) i.
Proof. by move=> HI Hi Hs; rewrite graft_get ?(b_nodes HI) // /graft_node Hs. Qed.
Lemma full_set s i w : binv s -> i < n -> started s i -> full (set_pools s (set_node (b_pools s) i w)) = set_node (full s) i w.
Proof. by move=> HI Hi Hs; symmetry; apply: graft_set; rewrite ?(b_nodes HI) // Hs. Qed.
Lemma full_size s : binv s -> size (m_nodes (full s)) = n.
Proof. by move=> HI; rewrite graft_size (b_nodes HI). Qed.

Lemma node_inv s i w acts : binv s -> i < n -> started s i ->
  mrun contrib (full s) acts = Ok (set_node (full s) i w) -> binv (set_pools s (set_node (b_pools s) i w)).
Proof.
move=> HI Hi Hs Ha; apply: (pools_inv (acts := acts) HI).
- by rewrite size_set_node (b_nodes HI).
- by apply: shape_ok (b_queues HI); apply: shape_set; rewrite (b_nodes HI).
by rewrite Ha full_set.
Qed.

Lemma receive_ok l i : known i l -> l_pos l < 3 -> exists2 v, vget (values a) (l_pos l) = Ok v &
  exists l', [/\ receive v l = Ok l', l_pos l' = (l_pos l).+1, known i l' & l_pool l' = l_pool l].
Proof.
case: l => p st t g po [/= -> -> -> K4 K5] Hp.
have {K5} -> : po = None by case: K5 => // -[E _]; lia.
case: p K4 Hp => [|[|[|p]]] // _ _; eexists; try reflexivity; eexists; split; try reflexivity; by split=> //; left.
Qed.

Lemma vget_take (T : Type) (xs : seq T) k j : k < j -> vget (take j xs) k = vget xs k.
Proof. by elim: xs k j => [|x xs IH] [|k] [|j] //= H; rewrite /vget /=; exact: IH. Qed.

Lemma worker_inv s i s' : binv s -> 0 < i < n -> boot_worker machine s i = Ok s' -> binv s'.
Proof.
move=> HI /andP[Hi0 Hi]; have Hk := b_known HI Hi; have Hb := b_behind HI; rewrite /boot_worker.
case: ltnP => Hp.
  case: ltnP => Hs; last by case=> <-.
  have [v Hv [l' [R1 R2 R3 R4]]] := receive_ok Hk Hp.
  have Hp' : l_pos (get_locals s i) < sent_by (b_pos s).
    by move: Hs; rewrite (b_values HI) size_take /= => Hs; case: ifP Hs => /= H Hs; lia.
  rewrite (b_values HI) vget_take // Hv /= R1 /= => -[<-].
  apply: (quiet_inv HI); [by []|by rewrite size_set_locals ?(b_size HI)|exact: (b_values HI)|exact: (proj1 (b_place HI))|exact: (proj2 (b_place HI))| | | |by []|].
  - by move=> j Hj; rewrite get_set_locals; case: eqP => [->|_] //; exact: (b_known HI).
  - by move=> j; rewrite get_set_locals; case: eqP => [->|_].
  - by rewrite get_set_locals eq_sym -leqn0 leqNgt Hi0 /=; case: (b_master HI).
  by move=> j Hj; rewrite get_set_locals; case: eqP => [_|_]; [rewrite R2 | exact: Hb].
case Ep: (l_pool _) => [x|]; last first.
  move=> Em; have Hns : ~~ started s i by rewrite /started Ep.
  have [F1 F2 F3 F4 F5] := make_pool_full (b_nodes HI) Hi Hk Hns Em.
  have Hl j : get_locals s' j = if j == i then Locals 3 (Some (a_store a)) (Some (a_threads a)) (Some (a_per_gpu a))
      (Some (a_store a, kinds_at i)) else get_locals s j by rewrite F4; exact: get_set_locals.
  have Ei : (0 == i) = false by rewrite eq_sym; lia.
  have Epos : b_pos s' = b_pos s by rewrite F4.
  split; rewrite ?Epos.
  + by rewrite F4 size_set_locals /= (b_size HI).
  + by rewrite F5 size_set_node (b_nodes HI).
  + by rewrite F4 /= (b_values HI).
  + exact: (b_place HI).
  + by move=> j Hj; rewrite Hl; case: eqP => [->|_]; [split=> //; right | exact: (b_known HI)].
  + by rewrite /started !Hl Ei; exact: (b_master HI).
  + move=> j Hj; rewrite Hl; case: eqP => [Ej|_]; last exact: Hb.
    by have := Hb j Hj; rewrite Ej F3.
  + by rewrite F5; apply: shape_ok (b_queues HI); apply: shape_set; rewrite (b_nodes HI).
  by have [acts Ha] := b_full HI; exists acts; rewrite F1.
have Hst : started s i by rewrite /started Ep.
case Ew: (node_step _) => [w| | |] //= [<-].
apply: (node_inv (acts := [:: ANode i]) HI) => //.
by rewrite /mrun /= full_size // Hi0 Hi /= full_get // Ew.
Qed.

Lemma step_inv s x s' : binv s -> bstep s x = Ok s' -> binv s'.
Proof.
move=> HI; rewrite /bstep (b_size HI); case: x => [save|i|i t|i t].
- exact: master_inv.
- by case: ifP => [Hi|_]; [exact: worker_inv | case=> <-].
- case: ifP => [/andP[Hi Hs]|_]; last by case=> <-.
  rewrite /mstep (b_nodes HI) Hi; case Ep: (thread_step _ _ _) => [p| | |] //= [<-].
  apply: (node_inv (acts := [:: AStep i t]) HI) => //.
  by rewrite /mrun /= full_size // Hi full_get // Ep.
case: ifP => [/andP[Hi Hs]|_]; last by case=> <-.
rewrite /mstep (b_nodes HI) Hi /= => -[<-]; apply: (node_inv (acts := [:: AWake i t]) HI) => //.
by rewrite /mrun /= full_size // Hi full_get.
Qed.

Lemma run_inv acts s s' : binv s -> brun s acts = Ok s' -> binv s'.
Proof.
elim: acts s => [|x acts IH] s HI; rewrite /Boot.brun /=; first by case=> <-.
case E: (bstep s x) => [s1| | |] //= H; have H1 := step_inv HI E; exact: IH H1 H.
Qed.

Lemma reached_inv acts s : brun (bstart a o n fs) acts = Ok s -> binv s.
Proof. exact: run_inv start_inv. Qed.

(** ** Nothing goes wrong *)
Hypothesis Hec : a_store a = 0.
Definition total : Prop :=
  if o is Ran _ calls _ then forall acts, exists m, mrun contrib (mstart (mkseq kinds_at n) fs calls) acts = Ok m else True.
Hypothesis Htot : total.
Definition is_ran : Prop := if o is Ran _ _ _ then True else False.

Lemma refused_quiet s k : o = Refused k -> binv s -> b_pos s = BMain \/ b_pos s = BBack k.
Proof. by move=> E HI; have [_] := b_place HI; case: (b_pos s) => [|?|?|||?] /=; rewrite ?E //; [left | case=> <-; right]. Qed.

Lemma started_ran s i : binv s -> i < n -> started s i -> is_ran.
Proof.
move=> HI Hi Hs; rewrite /is_ran; case E: o => [k|] //; have Hq := refused_quiet E HI.
have [M1 M2] := b_master HI; have Hb := b_behind HI.
case: i Hi Hs => [|i] Hi; first by rewrite M2; case: Hq => ->.
move=> Hs; have [_ _ _ _ [K|[K _]]] := b_known HI Hi; first by rewrite /started K in Hs.
by have := Hb i.+1 Hi; rewrite K; case: Hq => ->.
Qed.

Lemma full_step s x : binv s -> is_ran -> exists m, mstep contrib (full s) x = Ok m.
Proof.
move=> HI; have [acts Ha] := b_full HI; move: Htot Ha; rewrite /total /is_ran /calls_of; case: o => // cs calls e HT Ha _.
have [m] := HT (acts ++ [:: x]); rewrite (mrun_cat _ Ha) /mrun /=.
by case: (mstep _ _ _) => // m' _; exists m'.
Qed.

Lemma make_pool_ok s i : known i (get_locals s i) -> l_pos (get_locals s i) = 3 -> exists s', make_pool machine s i = Ok s'.
Proof. by move=> [K1 K2 K3 _ _] E; rewrite /make_pool K1 K2 K3 E /= Hec; eexists. Qed.

Lemma step_ok s x : binv s -> exists s', bstep s x = Ok s'.
Proof.
move=> HI; rewrite /bstep (b_size HI); have [P1 P2] := b_place HI; have [M1 M2] := b_master HI.
case: x => [save|i|i t|i t].
- rewrite /boot_master; case Epos: (b_pos s) => [|k|k|||k]; rewrite Epos in P1 P2; try by eexists.
  + by move: P1; case: k {P2 Epos} => [|[|[|]]] // _; eexists.
  + by have [s1 ->] := make_pool_ok (b_known HI Hn) M1; eexists.
  have [m] := full_step (AMaster save) HI P2; rewrite /= graft_step ?(b_queues HI) ?(b_nodes HI) //; last by rewrite M2 Epos.
  by case: (master_step _ _) => // m' _; eexists.
- case: ifP => [/andP[Hi0 Hi]|_]; last by eexists.
  have Hk := b_known HI Hi; rewrite /boot_worker; case: ltnP => Hp.
    case: ltnP => Hs; last by eexists.
    have [v Hv [l' [R1 _ _ _]]] := receive_ok Hk Hp.
    have Hp' : l_pos (get_locals s i) < sent_by (b_pos s).
      by move: Hs; rewrite (b_values HI) size_take /= => Hs; case: ifP Hs => /= H Hs; lia.
    by rewrite (b_values HI) vget_take // Hv /= R1; eexists.
  have E3 : l_pos (get_locals s i) = 3 by have [_ _ _ K _] := Hk; apply/eqP; rewrite eqn_leq K Hp.
  case Ep: (l_pool _) => [y|]; last exact: make_pool_ok.
  have Hst : started s i by rewrite /started Ep.
  have [m] := full_step (ANode i) HI (started_ran HI Hi Hst).
  by rewrite /= full_size // Hi0 Hi /= full_get //; case: (node_step _) => // w _; eexists.
- case: ifP => [/andP[Hi Hs]|_]; last by eexists.
  have [m] := full_step (AStep i t) HI (started_ran HI Hi Hs).
  rewrite /= full_size // Hi /= full_get // (b_nodes HI) Hi; by case: (thread_step _ _ _) => // p _; eexists.
- by case: ifP => [/andP[Hi Hs]|_]; rewrite /= ?(b_nodes HI) ?Hi; eexists.
Qed.

Lemma run_ok acts s : binv s -> exists2 s', brun s acts = Ok s' & binv s'.
Proof.
elim: acts s => [|x acts IH] s HI; first by exists s.
have [s1 H1] := step_ok x HI; have [s2 H2 HI2] := IH _ (step_inv HI H1); exists s2 => //.
by move: H2; rewrite /Boot.brun /= H1.
Qed.

(** ** The start takes finitely many rounds *)
Definition left_master (x : mboot) : nat :=
  match x with BMain => 8 | BCast k => 7 - 2 * k | BHold k => 6 - 2 * k | BSpark => 1 | BRun | BBack _ => 0 end.
Definition left_worker (l : locals) : nat := if l_pool l is None then 4 - l_pos l else 0.
Definition left_boot (s : bstate) : nat := left_master (b_pos s) + \sum_(i < n) left_worker (get_locals s i).

Definition can (s : bstate) (x : maction) : bool :=
  match x with
  | AMaster _ =>
      match b_pos s with
      | BRun | BBack _ => false
      | BHold k => ~~ (waits && has (fun l => l_pos l <= k) (behead (b_locals s)))
      | _ => true
      end
  | ANode i => (0 < i < n) && ~~ started s i && ((2 < l_pos (get_locals s i)) || (l_pos (get_locals s i) < size (b_sent s)))
  | _ => false
  end.

Definition same_boot (s s' : bstate) : Prop := [/\ b_pos s' = b_pos s, b_sent s' = b_sent s & b_locals s' = b_locals s].

Lemma sum_drop (f g : nat -> nat) i : i < n -> f i < g i -> (forall j, j != i -> f j = g j) ->
  \sum_(j < n) f j < \sum_(j < n) g j.
Proof.
move=> Hi Hlt He; rewrite (bigD1 (Ordinal Hi)) //= [X in _ < X](bigD1 (Ordinal Hi)) //= -addSn; apply: leq_add => //.
by rewrite (eq_bigr (fun j : 'I_n => g j)) // => j Hj; apply: He; apply: contraNneq Hj => E; apply/eqP/val_inj.
Qed.

Lemma step_boot s x s' : binv s -> bstep s x = Ok s' -> left_boot s' < left_boot s \/ same_boot s s' /\ ~~ can s x.
Proof.
move=> HI; rewrite /bstep (b_size HI); have [P1 P2] := b_place HI.
case: x => [save|i|i t|i t].
- rewrite /boot_master /can /left_boot; case Epos: (b_pos s) => [|k|k|||k]; rewrite Epos in P1 P2.
  + by case=> <-; left; rewrite ltn_add2r /=; case: (o).
  + by case: (vget _ _) => //= v [<-]; left; rewrite ltn_add2r /=; move: P1 => /=; lia.
  + case: ifP => Hw [<-]; [by right; rewrite negbK | left; rewrite ltn_add2r /=].
    by case: (k) P1 => [|[|[|]]].
  + case Em: (make_pool _ _ _) => [s1| | |] //= [<-]; left; rewrite /= add0n add1n ltnS.
    have Hns : ~~ started s 0 by rewrite (proj2 (b_master HI)) Epos.
    have [_ _ F3 F4 _] := make_pool_full (b_nodes HI) Hn (b_known HI Hn) Hns Em.
    apply: leq_sum => j _; rewrite F4 /bgoto /= -[get_locals _ _]/(get_locals (set_locals _ _ _) j) get_set_locals.
    by case: eqP.
  + by case: (master_step _ _) => //= m [<-]; right.
  by case=> <-; right.
- case: ifP => Hi0; last by case=> <-; right; rewrite /can Hi0.
  have /andP[H0 Hi] := Hi0; have Hk := b_known HI Hi; rewrite /boot_worker /can Hi0 /=; case: ltnP => Hp.
    have Hno : ~~ started s i by have [_ _ _ _ [K|[K _]]] := Hk; [rewrite /started K | rewrite K in Hp].
    case: ltnP => Hs; last first.
      by case=> <-; right; split=> //; rewrite ?orbF andbF.
    have [v Hv [l' [R1 R2 R3 R4]]] := receive_ok Hk Hp.
    have Hp' : l_pos (get_locals s i) < sent_by (b_pos s).
      by move: Hs; rewrite (b_values HI) size_take /= => Hs; case: ifP Hs => /= H Hs; lia.
    rewrite (b_values HI) vget_take // Hv /= R1 /= => -[<-]; left; rewrite /left_boot /= ltn_add2l.
    apply: (@sum_drop (fun j => left_worker (get_locals (set_locals s i l') j)) (fun j => left_worker (get_locals s j)) i) => //; last by move=> j /negbTE Hj; rewrite get_set_locals Hj.
    rewrite get_set_locals eqxx /left_worker R4 R2; move: Hno; rewrite /started; case: (l_pool _) => // _; lia.
  case Ep: (l_pool _) => [y|].
    by case: (node_step _) => //= w [<-]; right; split=> //; rewrite /started Ep.
  move=> Em; left; have Hns : ~~ started s i by rewrite /started Ep.
  have [_ _ F3 F4 _] := make_pool_full (b_nodes HI) Hi Hk Hns Em.
  rewrite /left_boot F4 /= ltn_add2l; set l' := Locals _ _ _ _ _.
  apply: (@sum_drop (fun j => left_worker (get_locals (set_locals (set_pools s (b_pools s')) i l') j)) (fun j => left_worker (get_locals s j)) i) => //.
    by rewrite get_set_locals eqxx /left_worker /= Ep F3.
  by move=> j /negbTE Hj; rewrite get_set_locals Hj.
- by case: ifP => _; [case: (mstep _ _ _) => //= m | ]; case=> <-; right.
- by case: ifP => _; [case: (mstep _ _ _) => //= m | ]; case=> <-; right.
Qed.

Lemma same_can s s' x : same_boot s s' -> can s' x = can s x.
Proof. by case=> E1 E2 E3; rewrite /can /started /get_locals E1 E2 E3. Qed.

Lemma same_left s s' : same_boot s s' -> left_boot s' = left_boot s.
Proof. by case=> E1 E2 E3; rewrite /left_boot /get_locals E1 E3. Qed.

Lemma run_boot acts s s' : binv s -> brun s acts = Ok s' ->
  left_boot s' < left_boot s \/ same_boot s s' /\ ~~ has (can s) acts.
Proof.
elim: acts s => [|x acts IH] s HI; rewrite /Boot.brun /=; first by case=> <-; right.
case E: (bstep s x) => [s1| | |] //= H; have H1 := step_inv HI E.
have [L|[S1 N1]] := step_boot HI E; have [L'|[S2 N2]] := IH _ H1 H.
- by left; exact: ltn_trans L' L.
- by left; rewrite (same_left S2).
- by left; rewrite -(same_left S1).
right; split; first by case: S1 S2 => E1 E2 E3 [F1 F2 F3]; split; rewrite ?F1 ?F2 ?F3.
by rewrite negb_or N1; rewrite (eq_has (a2 := can s)) in N2 => // y; exact: same_can S1.
Qed.

Lemma some_can s : binv s -> is_ran -> 0 < left_boot s ->
  can s (AMaster true) \/ exists2 i, 0 < i < n & can s (ANode i).
Proof.
move=> HI Ho Hl; have [P1 P2] := b_place HI; have [M1 M2] := b_master HI; have HV := b_values HI; have Hb := b_behind HI.
have [/hasP[i]|/hasPn Hw] := boolP (has (fun i => can s (ANode i)) (iota 1 n.-1)).
  by rewrite mem_iota => Hi Hc; right; exists i => //; lia.
left; have {}Hw i : 0 < i < n -> ~~ can s (ANode i) by move=> Hi; apply: Hw; rewrite mem_iota; lia.
have Hsz : size (b_sent s) = sent_by (b_pos s).
  by rewrite HV size_take /=; case: (b_pos s) P1 => [|[|[|[|]]]|[|[|[|]]]|||].
have Hpos i : 0 < i < n -> started s i \/ sent_by (b_pos s) <= l_pos (get_locals s i) < 3.
  move=> Hi; have := Hw i Hi; rewrite /can Hi /= negb_and negbK => /orP[->|]; first by left.
  by rewrite negb_or -!leqNgt Hsz => /andP[H1 H2]; right; rewrite H2; lia.
have Hst i : 0 < i < n -> started s i -> l_pos (get_locals s i) = 3.
  move=> Hi; have /andP[_ Hi'] := Hi; have [_ _ _ _ [K|[K _]]] := b_known HI Hi' => //; by rewrite /started K.
rewrite /can; case Epos: (b_pos s) => [|k|k|||k] //; rewrite Epos in P1 P2 Hl M2 Hpos.
- rewrite negb_and -all_predC; apply/orP; right; apply/(all_nthP locals0) => i; rewrite size_behead (b_size HI) nth_behead /= -ltnNge => Hi.
  have Hi' : 0 < i.+1 < n by lia.
  have [Hs|/andP[Hs _]] := Hpos i.+1 Hi'; last by [].
  by rewrite -[nth _ _ _]/(get_locals s i.+1) Hst.
- move: Hl; rewrite /left_boot Epos add0n big1 // => -[[|i] Hi] _ /=.
    by rewrite /left_worker; move: M2; rewrite /started; case: (l_pool _).
  have [|/andP[H1 H2]] := Hpos i.+1 Hi; first by rewrite /left_worker /started; case: (l_pool _).
  by move: H1 H2 => /=; lia.
by rewrite /is_ran P2 in Ho.
Qed.

(** ** The end *)
Lemma started_full s i : binv s -> left_boot s = 0 -> i < n -> started s i.
Proof.
move=> HI; rewrite /left_boot => /eqP; rewrite addn_eq0 => /andP[_ H] Hi.
move: H; rewrite sum_nat_eq0 => /forallP/(_ (Ordinal Hi)) /=.
rewrite /left_worker /started; have [_ _ _ K _] := b_known HI Hi; case: (l_pool _) => //; lia.
Qed.

Lemma full_pools s : binv s -> left_boot s = 0 -> full s = b_pools s.
Proof.
move=> HI H0; apply: mstate_eq => //; apply: nodes_eq; first by rewrite size_mkseq.
move=> i; rewrite size_mkseq (b_nodes HI) => Hi; rewrite nth_mkseq ?(b_nodes HI) // /graft_node.
by rewrite (started_full HI H0 Hi).
Qed.

Lemma boot_rounds k s rounds : binv s -> is_ran ->
  left_boot s <= k -> k <= size rounds -> all (mfull_round (mkseq kinds_at n)) rounds ->
  exists2 s', brun s (flatten (take k rounds)) = Ok s' & binv s' /\ left_boot s' = 0.
Proof.
elim: k s rounds => [|k IH] s rounds HI Ho Hl.
  by move=> _ _; exists s; rewrite ?take0 //; split=> //; apply/eqP; rewrite -leqn0.
case: rounds => [|r rounds] //= Hk /andP[Hr Hrs].
have [s1 H1 HI1] := run_ok r HI.
have Hl1 : left_boot s1 <= k.
  have [L|[S N]] := run_boot HI H1; first by lia.
  have [E|Hpos] := posnP (left_boot s); first by rewrite (same_left S) E.
  exfalso; apply: (negP N); case/andP: Hr => Hm /allP Hw; have [Hc|[i Hi Hc]] := some_can HI Ho Hpos.
    by apply: sub_has Hm => -[save|?|? ?|? ?].
  have /Hw : i \in iota 0 (size (mkseq kinds_at n)) by rewrite size_mkseq mem_iota; lia.
  case/andP=> H _; have {}H : has (runs_worker i) r by case/orP: H => // /eqP; lia.
  by apply: sub_has H => -[?|j|? ?|? ?] // /eqP->.
have [s2 H2 K2] := IH _ _ HI1 Ho Hl1 Hk Hrs; exists s2 => //.
by move: H1 H2; rewrite /Boot.brun; elim: (r) (s) => [|x l IHl] s0 /=; [case=> -> | case: (bstep s0 x) => //= s3; exact: IHl].
Qed.

(** After the start, the pools run. *)
Lemma late_run acts s m : binv s -> left_boot s = 0 -> mrun contrib (b_pools s) acts = Ok m ->
  exists2 s', brun s acts = Ok s' & b_pools s' = m.
Proof.
move=> HI H0 Hr; have [s' H1 _] := run_ok acts HI; exists s' => //.
elim: acts s HI H0 Hr H1 => [|x acts IH] s HI H0 Hr H1; first by case: Hr H1 => <- [<-].
move: Hr H1; rewrite /mrun /Boot.brun /=; case Em: (mstep _ _ x) => [m1| | |] //=; case Eb: (bstep s x) => [s1| | |] //= Hr H1.
have HI' := step_inv HI Eb; have H0' : left_boot s1 = 0.
  by have [|[S _]] := step_boot HI Eb; [rewrite H0 | rewrite (same_left S)].
have E1 : b_pools s1 = m1.
  have Hpos : b_pos s = BRun.
    by have [_ M2] := b_master HI; move: M2; rewrite (started_full HI H0 Hn); case: (b_pos s).
  have Hall i : i < n -> l_pool (get_locals s i) != None by exact: started_full.
  have Hp3 i : i < n -> (l_pos (get_locals s i) < 3) = false.
    by move=> Hi; have [_ _ _ _ [K|[-> _]]] := b_known HI Hi => //; have := Hall i Hi; rewrite K.
  move: Eb Em; rewrite /bstep (b_size HI); case: x => [save|i|i t|i t].
  - rewrite /boot_master Hpos [mstep _ _ _]/=; case: (master_step _ _) => //= y [<-] [->] //.
  - rewrite /= (b_nodes HI); case: ifP => [/andP[_ Hi]|_]; last by case=> <- [<-].
    rewrite /boot_worker Hp3 //; have := Hall i Hi; case: (l_pool _) => // y _.
    by case: (node_step _) => //= w [<-] [<-].
  - case: ifP => Hi; last by case=> <-; rewrite /= (b_nodes HI); case: ltnP Hi => Hi /=; rewrite ?Hall // => _ [<-].
    by case: (mstep _ _ _) => //= y [<-] [<-].
  case: ifP => Hi; last by case=> <-; rewrite /= (b_nodes HI); case: ltnP Hi => Hi /=; rewrite ?Hall // => _ [<-].
  by case: (mstep _ _ _) => //= y [<-] [<-].
by apply: (IH s1 HI' H0') => //; rewrite E1.
Qed.
End Start.

(** ** The theorems *)
Section Theorems.
Variable contrib : nat -> block -> store.
Variables (waits : bool) (machine : nat -> nat * nat) (a : arguments) (o : outcome) (n : nat) (fs : seq file).
Hypothesis Hn : 0 < n.
Local Notation K := (mkseq (kinds_at machine a) n).
Local Notation brun := (brun contrib waits machine a o (bstart a o n fs)).

Lemma boot_same acts s : brun acts = Ok s ->
  forall i p, i < n -> l_pool (get_locals s i) = Some p -> p = (a_store a, kinds_at machine a i).
Proof.
move=> Hr i p Hi Ep; have HI := reached_inv Hn Hr; have [_ _ _ _ [K|[_ K]]] := b_known HI Hi; by move: K; rewrite Ep // => -[].
Qed.

Lemma boot_as_if acts s : brun acts = Ok s ->
  exists acts' m, [/\ mrun contrib (mstart K fs (if o is Ran _ calls _ then calls else [::])) acts' = Ok m,
    m_files m = m_files (b_pools s), m_pc m = m_pc (b_pools s) /\ m_prog m = m_prog (b_pools s) &
    forall i, i < n -> l_pool (get_locals s i) <> None -> get_node m i = get_node (b_pools s) i].
Proof.
move=> Hr; have HI := reached_inv Hn Hr; have [acts' Ha] := b_full HI; exists acts', (full machine a s); split=> //.
move=> i Hi Hp; apply: (full_get HI Hi); rewrite /started; by case: (l_pool _) Hp.
Qed.

Lemma boot_total (jobs : seq job) : a_store a = 0 -> (forall c b, is_map (contrib c b)) -> jobs_wf jobs ->
  (if o is Ran _ calls _ then calls = main_program jobs else True) -> forall acts, exists s, brun acts = Ok s.
Proof.
move=> Ha Hmap Hj Ho acts.
have Htot : total contrib machine a o n fs.
  rewrite /total; case: o Ho => // cs calls e -> acts'; have [|m Hm _] := mrun_good Hmap fs Hj (kinds := K) acts'; last by exists m.
  by rewrite size_mkseq.
have [s Hs _] := @run_ok contrib waits machine a o n fs Hn Ha Htot acts _ (start_inv contrib machine a o fs Hn); by exists s.
Qed.

Lemma boot_ends (jobs : seq job) cs e : a_store a = 0 -> (forall c b, is_map (contrib c b)) -> jobs_wf jobs ->
  o = Ran cs (main_program jobs) e -> 0 < sumn [seq size k | k <- K] -> forall acts s, brun acts = Ok s ->
  exists k, forall rounds, k <= size rounds -> all (mfull_round K) rounds ->
    exists2 s', Boot.brun contrib waits machine a o s (flatten rounds) = Ok s' & b_pos s' = BRun /\ mended (b_pools s').
Proof.
move=> Ha Hmap Hj Ho Hk acts s Hr; have HI := reached_inv Hn Hr.
have Hran : is_ran o by rewrite Ho.
have Htot : total contrib machine a o n fs.
  rewrite /total Ho => acts'; have [|m Hm _] := mrun_good Hmap fs Hj (kinds := K) acts'; last by exists m.
  by rewrite size_mkseq.
have L0 := start_live contrib jobs fs Hk.
set L := [seq size k | k <- K] in L0; pose k1 := left_boot n s; pose k2 := (meas L (mstart K fs (main_program jobs))).+1.
exists (k1 + k2) => rounds Hsz Hall; rewrite -(cat_take_drop k1 rounds) flatten_cat.
have [|s1 H1 [HI1 H0]] := @boot_rounds contrib waits machine a o n fs Hn Ha Htot k1 s rounds HI Hran (leqnn k1) _ Hall; first by lia.
have [acts1 Hf] := b_full HI1; rewrite (full_pools Hn Ha HI1 H0) /calls_of Ho in Hf.
have [L1 Hm] := mrun_live Hmap Hj Hk L0 Hf.
have [||m Hm1 Hm2] := @mrounds_end contrib Hmap jobs fs Hj K Hk _ _ (drop k1 rounds) L1 Hm.
- by rewrite size_drop; apply: leq_trans (leq_sub2r k1 Hsz); rewrite addKn.
- by move: Hall; rewrite -{1}(cat_take_drop k1 rounds) all_cat => /andP[].
have [s2 H2 E2] := @late_run contrib waits machine a o n fs Hn Ha Htot _ _ _ HI1 H0 Hm1; exists s2; last split; rewrite ?E2 //.
- move: H1 H2; rewrite /Boot.brun; elim: (flatten _) (s) => [|x l IHl] s0 /=; first by case=> ->.
  by case: (bstep _ _ _ _ _ s0 x) => //= s3; exact: IHl.
have HI2 := run_inv Hn HI1 H2; have [[P1 P2] [M1 M2]] := (b_place HI2, b_master HI2).
have Hl : left_boot n s2 = 0.
  by have [|[S _]] := run_boot Hn Ha HI1 H2; [rewrite H0 | rewrite (same_left n S)].
by move: M2; rewrite (started_full Hn Ha HI2 Hl Hn); case: (b_pos s2).
Qed.

Lemma boot_refused k : o = Refused k ->
  (forall acts s, brun acts = Ok s -> forall i, 0 < i < n -> l_pos (get_locals s i) = 0) /\
  exists s, brun [:: AMaster true] = Ok s /\ b_pos s = BBack k.
Proof.
move=> E; split; last by rewrite /Boot.brun /= /boot_master /= E; eexists.
move=> acts s Hr i Hi; have HI := reached_inv Hn Hr; have Hq := refused_quiet E HI.
by have := b_behind HI Hi; case: Hq => -> /=; rewrite leqn0 => /eqP.
Qed.
End Theorems.

(** The results of C68 with the start. *)
Section Results.
Variables (W S M : nat).
Variable flint : nat -> nat -> flint_field.
Variable is_squarefree : forall p r, seq (ff_field (flint p r)) -> bool.
Variable factor : nat -> nat -> seq nat -> seq (nat * nat).
Hypothesis HMW : 2 * M <= W.
Hypothesis HWS : W <= S.
Variable dir : seq char -> nat.

Lemma boot_results w fuel op cs calls e : main M W dir w fuel op = Ok (Ran cs calls e) ->
  proper W S M is_squarefree factor dir fuel cs -> forall fs, earlier W S M is_squarefree factor dir cs fs ->
  forall waits machine a n acts s, 0 < n ->
    brun (contribution W S is_squarefree factor fuel cs) waits machine a (Ran cs calls e)
      (bstart a (Ran cs calls e) n fs) acts = Ok s -> mthrough e (b_pools s) ->
    forall i, promised e cs i -> sound M is_squarefree factor (nth c0 cs i) ->
      counted W M flint dir (nth c0 cs i) (m_files (b_pools s)).
Proof.
move=> Hm Hp fs Hf waits machine a n acts s Hn Hr Ht i Hi Hs.
have [acts' [m [H1 H2 [H3 H4] _]]] := boot_as_if Hn Hr; rewrite -H2.
have [_ R] := results HMW HWS Hm Hp Hf; apply: (R _ _ _ _ H1) => //; first by rewrite size_mkseq.
by move: Ht; rewrite /mthrough H3 H4.
Qed.
End Results.
