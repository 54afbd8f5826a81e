(** Proofs about the queue of an OpenCL device, Queue.v. *)
Set Warnings "-notation-overridden,-ambiguous-paths".
From mathcomp Require Import all_ssreflect ssralg finalg zify.
From Verif Require Import Res ResFacts FinField Tables TablesSpec CurveSpec Curve PointSpec CurveProofs CurveHistory
  OpenCL OpenCLProofs Queue QueueSpec.

Set Implicit Arguments.
Unset Strict Implicit.
Unset Printing Implicit Defensive.

Lemma write_whole buf v : size buf = size v -> write_buffer buf v = Ok v.
Proof. by move=> E; rewrite /write_buffer E leqnn -E drop_size cats0. Qed.

Section Queue.
Variables (W M : nat) (tables : seq redtable) (junk : nat -> nat -> nat) (sched : nat -> nat * nat)
  (orders : nat -> nat -> seq nat).
Local Notation m := (size tables).
Let t0 := RedTable 0 0 0 [::] [::].
Let b0 := Buffers [::] [::] [::] [::] [::].
Local Notation tbl i := (nth t0 tables i).
Local Notation buf bs i := (nth b0 bs i).

Definition is_red i c := if c is WriteRed j then i == j else false.
Definition is_inc i c := if c is WriteInc j then i == j else false.
Definition is_init first n c := match c with WriteRed j | WriteInc j => first <= j < n | _ => false end.

(** The buffers have the right sizes, and the tables are in them or will be when the commands [q] are executed. *)
Definition ready1 (q : seq command) i b :=
  [/\ has (is_red i) q \/ b_red b = rt_red (tbl i), has (is_inc i) q \/ b_inc b = rt_inc (tbl i),
      size (b_red b) = size (rt_red (tbl i)) /\ size (b_inc b) = size (rt_inc (tbl i)),
      size (b_unram b) = (rt_power (tbl i)).-1 /\ size (b_ram b) = (rt_power (tbl i)).-1 &
      sm_wf (b_coeffs b) /\ forall d v, sm_find (b_coeffs b) d = Some v -> size v = d.+1].
Definition ready first n bs q :=
  [/\ size bs = n, n <= m, all (is_init first n) q & forall i, i < n -> ready1 q i (buf bs i)].

Lemma ready_set f n bs q i b : ready f n bs q -> i < n -> ready1 q i b -> ready f n (set_nth b0 bs i b) q.
Proof.
case=> Es Hm Hq H Hi Hb; split=> //; first by rewrite size_set_nth Es (maxn_idPr Hi).
by move=> j Hj; rewrite nth_set_nth /=; case: eqP => [->|_] //; apply: H.
Qed.

Lemma exec_init f n param bs c q : ready f n bs (c :: q) -> exists bs',
  [/\ exec M tables f param bs c = Ok bs', ready f n bs' q & forall i, b_coeffs (buf bs' i) = b_coeffs (buf bs i)].
Proof.
case=> Es Hm /= /andP[Hc Hq] H.
case: c Hc H => //= j /andP[Hf Hj] H; have [H1 H2 [E1 E2] H4 H5] := H j Hj; have Hjm := leq_trans Hj Hm; rewrite ltnNge Hf /=.
- rewrite (vgetE t0) // (vgetE b0) ?Es //= write_whole //= (vsetE b0) ?Es //; eexists; split; [by [] | | by move=> i; rewrite nth_set_nth /=; case: eqP => [->|]].
  split=> //; first by rewrite size_set_nth Es (maxn_idPr Hj).
  move=> i Hi; rewrite nth_set_nth /=; case: eqP => [->|Hne].
    by split=> //; right.
  case: (H i Hi) => /= A1 A2 A3 A4 A5; split=> //.
  by move: A1; case: eqP => // _ /=.
- rewrite (vgetE t0) // (vgetE b0) ?Es //= write_whole //= (vsetE b0) ?Es //; eexists; split; [by [] | | by move=> i; rewrite nth_set_nth /=; case: eqP => [->|]].
  split=> //; first by rewrite size_set_nth Es (maxn_idPr Hj).
  move=> i Hi; rewrite nth_set_nth /=; case: eqP => [->|Hne].
    by split=> //; right.
  case: (H i Hi) => /= A1 A2 A3 A4 A5; split=> //.
  by move: A2; case: eqP => // _ /=.
Qed.

Lemma exec_inits f n param q bs q' : ready f n bs (q ++ q') ->
  exists bs', [/\ foldM (exec M tables f param) bs q = Ok bs', ready f n bs' q' & forall i, b_coeffs (buf bs' i) = b_coeffs (buf bs i)].
Proof.
elim: q bs => [|c q IH] bs /=; first by move=> H; exists bs.
move=> /(exec_init param)[bs' [-> /IH[bs'' [E H Eb]] Eb']]; exists bs''; split=> // i.
by rewrite Eb Eb'.
Qed.

(** The queue after a configuration. *)
Lemma add_ready f n bs q : ready f n bs q -> f <= n -> n < m ->
  ready f n.+1 (rcons bs (mk_buffers junk n (tbl n))) (rcons (rcons q (WriteRed n)) (WriteInc n)).
Proof.
case=> Es Hm Hq H Hf Hn; split=> //.
- by rewrite size_rcons Es.
- by rewrite !all_rcons /= Hf ltnSn /=; apply: sub_all Hq => -[] //= j /andP[-> Hj]; exact: ltnW.
- move=> i; rewrite ltnS leq_eqVlt nth_rcons Es => /orP[/eqP->|Hi].
    rewrite ltnn eqxx; split; rewrite /= ?size_mkseq //.
    + by left; rewrite !has_rcons /= eqxx.
    + by left; rewrite !has_rcons /= eqxx.
  rewrite Hi; case: (H i Hi) => A1 A2 A3 A4 A5; split=> //.
  + by case: A1 => A; [left | right]; rewrite // !has_rcons A !orbT.
  + by case: A2 => A; [left | right]; rewrite // !has_rcons A !orbT.
Qed.

Lemma adds_ready ts st : ready (q_first st) (size (q_bufs st)) (q_bufs st) (q_queue st) -> q_first st <= size (q_bufs st) ->
  size (q_bufs st) + size ts <= m -> (forall j, j < size ts -> nth t0 ts j = tbl (size (q_bufs st) + j)) ->
  let st' := foldl (add_table junk) st ts in
  [/\ ready (q_first st) (size (q_bufs st')) (q_bufs st') (q_queue st'), q_first st' = q_first st /\ q_calls st' = q_calls st,
      size (q_bufs st') = size (q_bufs st) + size ts & size (q_queue st') = size (q_queue st) + 2 * size ts].
Proof.
elim: ts st => [|t ts IH] st /= H Hf Hm Hts; first by rewrite !addn0.
have Hn : size (q_bufs st) < m by lia.
have := add_ready H Hf Hn; rewrite -[X in mk_buffers _ _ (nth _ _ X)]addn0 -(Hts 0) //= => H'.
have := IH (add_table junk st t); rewrite /= size_rcons => -[||||A1 [A2 A2'] A3 A4] //.
- by lia.
- by lia.
- by move=> j Hj; have := Hts j.+1 Hj; rewrite /= addSnnS.
- by split=> //; rewrite ?A3 ?A4 ?size_rcons; lia.
Qed.

Lemma configure_ready st k : ready (q_first st) (size (q_bufs st)) (q_bufs st) [::] -> q_queue st = [::] ->
  size (q_bufs st) + k <= m ->
  let st' := configure tables junk st k in
  [/\ ready (size (q_bufs st)) (size (q_bufs st')) (q_bufs st') (q_queue st'),
      q_first st' = size (q_bufs st) /\ q_calls st' = 0, size (q_bufs st') = size (q_bufs st) + k & size (q_queue st') = 2 * k].
Proof.
move=> H Eq Hk; rewrite /configure Eq; set n := size (q_bufs st).
have Sk : size (take k (drop n tables)) = k by rewrite size_takel // size_drop; lia.
have H' : ready n n (q_bufs st) [::] by case: H.
have := @adds_ready (take k (drop n tables)) (QState [::] (q_bufs st) 0 n) H' (leqnn _).
rewrite /= Sk -/n => -[|j Hj|A1 [A2 A2'] A3 A4] //.
by rewrite nth_take // nth_drop.
Qed.

(** What one call does. *)
Lemma need_ok n st i d : ready (q_first st) n (q_bufs st) (q_queue st) -> i < n ->
  exists st', [/\ need_kernel tables junk st i d = Ok st', ready (q_first st) n (q_bufs st') (q_queue st'),
    exists v, sm_find (b_coeffs (buf (q_bufs st') i)) d = Some v, q_queue st' = q_queue st &
    q_calls st' = q_calls st /\ q_first st' = q_first st].
Proof.
move=> H Hi; have [Es Hm Hq Hb] := H; have [A1 A2 A3 A4 [Awf A5]] := Hb i Hi.
rewrite /need_kernel (vgetE b0) ?Es //=; case E: (sm_find _ d) => [v|]; first by exists st; split=> //; exists v.
rewrite (vsetE b0) ?Es //=; eexists; split; try by [].
- apply: ready_set => //; split=> //=; split=> [|d' v]; first exact: sm_wf_set.
  rewrite sm_find_set //; by case: eqP => [->|_]; [case=> <-; rewrite size_mkseq | apply: A5].
- by exists (mkseq (junk (4 * m + q_calls st)) d.+1); rewrite /= nth_set_nth /= eqxx /= sm_find_set // eqxx.
Qed.

Lemma evaluate_size t cs order u0 r0 u r : evaluate M t cs order (u0, r0) = Ok (u, r) ->
  size u = size u0 /\ size r = size r0.
Proof.
rewrite /evaluate; elim: order u0 r0 => [|x order IH] u0 r0 /=; first by case=> -> ->.
rewrite /kernel_item; case: (kernel_eval _ _ _ _ _ _) => //= f.
rewrite /vset; case: ifP => //= Hu; case: ifP => //= Hr /IH[-> ->].
by rewrite !size_set_nth (maxn_idPr Hu) (maxn_idPr Hr).
Qed.

(** The whole queue with the two commands of a call, the parameter being alive. *)
Lemma run_call_ok f n call bs q i d cs order : ready f n bs q -> i < n -> size cs = d.+1 ->
  (exists v, sm_find (b_coeffs (buf bs i)) d = Some v) ->
  (forall u0 r0, size u0 = (rt_power (tbl i)).-1 -> size r0 = (rt_power (tbl i)).-1 ->
     exists u r, evaluate M (tbl i) cs order (u0, r0) = Ok (u, r)) ->
  exists u0 r0 u r bs' bs'',
    [/\ size u0 = (rt_power (tbl i)).-1 /\ size r0 = (rt_power (tbl i)).-1,
        evaluate M (tbl i) cs order (u0, r0) = Ok (u, r),
        foldM (exec M tables f (Some (call, cs))) bs (rcons q (WriteCoeffs i d call)) = Ok bs',
        (forall param, exec M tables f param bs' (RunKernel i d order) = Ok bs'') &
        [/\ ready f n bs'' [::], b_unram (buf bs'' i) = u & b_ram (buf bs'' i) = r]].
Proof.
move=> H Hi Hcs [v Hv] He; rewrite -(cats0 q) in H.
have [bs1 [E1 H1 Eb1]] := exec_inits (Some (call, cs)) H.
have [Es Hm _ Hb] := H1; have Him := leq_trans Hi Hm; have [A1 A2 A3 [A4 A4'] [Awf A5]] := Hb i Hi.
have Ered : b_red (buf bs1 i) = rt_red (tbl i) by case: A1.
have Einc : b_inc (buf bs1 i) = rt_inc (tbl i) by case: A2.
have [u [r E]] := He _ _ A4 A4'.
have Hv1 : size v = d.+1 by apply: (A5 d); rewrite Eb1.
set b1 := Buffers (b_red (buf bs1 i)) (b_inc (buf bs1 i)) (b_unram (buf bs1 i)) (b_ram (buf bs1 i))
            (sm_set (b_coeffs (buf bs1 i)) d cs).
exists (b_unram (buf bs1 i)), (b_ram (buf bs1 i)), u, r, (set_nth b0 bs1 i b1),
  (set_nth b0 (set_nth b0 bs1 i b1) i (Buffers (b_red b1) (b_inc b1) u r (b_coeffs b1))).
have [Su Sr] := evaluate_size E.
have H2 : ready f n (set_nth b0 bs1 i b1) [::].
  apply: ready_set => //; split=> //=; split=> [|d' w]; first exact: sm_wf_set.
  rewrite sm_find_set //; by case: eqP => [->|_]; [case=> <- | apply: A5].
have [Es2 _ _ _] := H2.
split=> //.
- rewrite -cats1 foldM_cat E1 /= (vgetE b0) ?Es //= eqxx /= /sm_at Eb1 Hv /= write_whole ?Hv1 //=.
  by rewrite (vsetE b0) ?Es // /b1 Eb1.
- move=> param /=; rewrite (vgetE t0) //= (vgetE b0) ?Es2 //= nth_set_nth /= eqxx /=.
  rewrite /sm_at sm_find_set // eqxx /= -Hcs take_size.
  have -> : evaluate M (device_table (tbl i) b1) cs order (b_unram (buf bs1 i), b_ram (buf bs1 i)) = Ok (u, r).
    by rewrite -E /evaluate /device_table /= Ered Einc.
  by rewrite /= (vsetE b0) ?Es2.
- split; last 2 first.
  + by rewrite nth_set_nth /= eqxx.
  + by rewrite nth_set_nth /= eqxx.
  apply: ready_set => //; split; rewrite /= ?Su ?Sr //.
  + split=> [|d' w]; first exact: sm_wf_set.
    rewrite sm_find_set //; case: eqP => [->|_]; [by case=> <- | exact: A5].
Qed.

Local Arguments exec : simpl never.

(** The device stops in the middle of [enqueue], twice. *)
Lemma two_advances n1 n2 param st c1 c2 : size (q_queue st) < n1 + n2 ->
  exists2 k, k <= 1 &
    (st1 <- advance M tables n1 param (put st c1) ;; advance M tables n2 param (put st1 c2)) =
    (bs <- foldM (exec M tables (q_first st) param) (q_bufs st) (rcons (q_queue st) c1 ++ take k [:: c2]) ;;
     Ok (QState (drop k [:: c2]) bs (q_calls st) (q_first st))).
Proof.
move=> Hn; rewrite /advance /put /=; set q := rcons (q_queue st) c1.
have Sq : size q = (size (q_queue st)).+1 by rewrite size_rcons.
exists (if size (drop n1 q) < n2 then 1 else 0); first by case: ifP.
case: leqP => Hc.
  rewrite drop0 cats0 -[in RHS](cat_take_drop n1 q) foldM_cat.
  case: (foldM _ _ (take n1 q)) => //= bs.
  rewrite -cats1 take_cat drop_cat.
  have -> : n2 = size (drop n1 q) by rewrite size_drop in Hc *; lia.
  by rewrite ltnn subnn /= cats0.
rewrite -[in RHS](cat_take_drop n1 q) -catA foldM_cat.
case: (foldM _ _ (take n1 q)) => //= bs.
have Hr : size (rcons (drop n1 q) c2) <= n2 by rewrite size_rcons.
by rewrite cats1 (take_oversize Hr) (drop_oversize Hr).
Qed.

(** The state during a configuration with [k] tables. *)
Definition fine k st :=
  [/\ ready (q_first st) (size (q_bufs st)) (q_bufs st) (q_queue st),
      size (q_queue st) <= (if q_calls st == 0 then 2 * k else 0) & q_first st + k = size (q_bufs st)].
(** What does not change meanwhile. *)
Definition later st st' :=
  [/\ q_first st' = q_first st, size (q_bufs st') = size (q_bufs st) & q_calls st <= q_calls st'].

Lemma enqueue_ok k st i d cs : fine k st -> i < size (q_bufs st) -> size cs = d.+1 -> in_time (2 * k) sched ->
  (exists v, sm_find (b_coeffs (buf (q_bufs st) i)) d = Some v) ->
  (forall u0 r0, size u0 = (rt_power (tbl i)).-1 -> size r0 = (rt_power (tbl i)).-1 ->
     exists u r, evaluate M (tbl i) cs (orders (q_calls st) i) (u0, r0) = Ok (u, r)) ->
  exists u0 r0 u r st' bs,
    [/\ size u0 = (rt_power (tbl i)).-1 /\ size r0 = (rt_power (tbl i)).-1,
        evaluate M (tbl i) cs (orders (q_calls st) i) (u0, r0) = Ok (u, r),
        [/\ enqueue_count M tables sched orders st i d cs = Ok st', q_calls st' = (q_calls st).+1 & q_first st' = q_first st],
        foldM (exec M tables (q_first st) None) (q_bufs st') (q_queue st') = Ok bs &
        [/\ ready (q_first st) (size (q_bufs st)) bs [::], b_unram (buf bs i) = u & b_ram (buf bs i) = r]].
Proof.
move=> [H Hq _] Hi Hcs Ht Hv He.
have [u0 [r0 [u [r [bs1 [bs2 [Hs E E1 E2 [H2 Hu Hr]]]]]]]] := run_call_ok (q_calls st) H Hi Hcs Hv He.
exists u0, r0, u, r.
rewrite /enqueue_count Hcs eqxx /=.
have Hn : size (q_queue st) < (sched (q_calls st)).1 + (sched (q_calls st)).2.
  exact: leq_ltn_trans Hq (Ht _).
have [j Hj Ej] := two_advances (Some (q_calls st, cs)) (WriteCoeffs i d (q_calls st))
  (RunKernel i d (orders (q_calls st) i)) Hn.
have -> T (f : qstate -> res T) : (st1 <- advance M tables (sched (q_calls st)).1 (Some (q_calls st, cs))
    (put st (WriteCoeffs i d (q_calls st))) ;;
  st2 <- advance M tables (sched (q_calls st)).2 (Some (q_calls st, cs))
    (put st1 (RunKernel i d (orders (q_calls st) i))) ;; f st2) =
  bind (st1 <- advance M tables (sched (q_calls st)).1 (Some (q_calls st, cs))
      (put st (WriteCoeffs i d (q_calls st))) ;;
    advance M tables (sched (q_calls st)).2 (Some (q_calls st, cs))
      (put st1 (RunKernel i d (orders (q_calls st) i)))) f by case: (advance _ _ _ _ _).
rewrite Ej foldM_cat E1 /=.
case: j Hj {Ej} => [|[|//]] _ /=.
  by exists (QState [:: RunKernel i d (orders (q_calls st) i)] bs1 (q_calls st).+1 (q_first st)), bs2; split=> //=; rewrite E2.
by rewrite E2 /=; exists (QState [::] bs2 (q_calls st).+1 (q_first st)), bs2.
Qed.

Lemma count_queue_ok k st i d cs pts : fine k st -> i < size (q_bufs st) -> size cs = d.+1 -> in_time (2 * k) sched ->
  (forall u0 r0, size u0 = (rt_power (tbl i)).-1 -> size r0 = (rt_power (tbl i)).-1 ->
     exists u r a b, [/\ evaluate M (tbl i) cs (orders (q_calls st) i) (u0, r0) = Ok (u, r),
                         host_sum M u = Ok a & host_sum M r = Ok b]) ->
  exists u0 r0 st' ab,
    [/\ size u0 = (rt_power (tbl i)).-1 /\ size r0 = (rt_power (tbl i)).-1,
        [/\ fine k st', later st st' & 0 < q_calls st'],
        count_queue W M tables junk sched orders st i d cs pts = Ok (st', ab) &
        count_opencl W M d (tbl i) cs true (orders (q_calls st) i) (u0, r0) pts = Ok ab].
Proof.
move=> [H Hq Hk] Hi Hcs Ht He.
have [st1 [En H1 Hv Eq [Ec Ef]]] := need_ok d H Hi.
have [Es1 Hm _ _] := H1; have Him := leq_trans Hi Hm.
have F1 : fine k st1 by split; rewrite ?Eq ?Ec ?Ef ?Es1 // -Eq.
have Hi1 : i < size (q_bufs st1) by rewrite Es1.
have He1 u0 r0 : size u0 = (rt_power (tbl i)).-1 -> size r0 = (rt_power (tbl i)).-1 ->
    exists u r, evaluate M (tbl i) cs (orders (q_calls st1) i) (u0, r0) = Ok (u, r).
  by move=> Hu Hr; have [u [r [a [b [E _ _]]]]] := He _ _ Hu Hr; exists u, r; rewrite Ec.
have [u0 [r0 [u [r [st2 [bs [[Hu Hr] E [E2 Ec2 Ef2] E3 [H3 Eu Er]]]]]]]] := enqueue_ok F1 Hi1 Hcs Ht Hv He1.
have [u' [r' [a [b [E' Ea Eb]]]]] := He _ _ Hu Hr.
move: E; rewrite Ec E' => -[Eu' Er'].
have [Es _ _ Hb] := H3; have [_ _ _ [Su Sr] _] := Hb i Hi1.
have Tu : take (rt_power (tbl i)).-1 (b_unram (buf bs i)) = u' by rewrite -Su take_size Eu.
have Tr : take (rt_power (tbl i)).-1 (b_ram (buf bs i)) = r' by rewrite -Sr take_size Er.
exists u0, r0, (QState [::] bs (q_calls st2) (q_first st2)), (uadd W pts.1 a, uadd W pts.2 b); split=> //.
- split; rewrite /= ?Ec2 //.
  + by split=> //=; rewrite ?Ef2 ?Es ?Ef ?Es1 // -Ef -Es1.
  + by split; rewrite /= ?Ef2 ?Es ?Ef ?Es1 ?Ec2 ?Ec.
- rewrite /count_queue En /= E2 /= /read_sum (vgetE t0) //= /advance take_size drop_size Ef2 E3 /=.
  rewrite (vgetE b0) ?Es //= Su ltnn Tu Ea /=.
  by rewrite (vgetE b0) ?Es //= Sr ltnn Tr Eb.
- by rewrite /count_opencl /enqueue Hcs eqxx /= E' /= Ea /= Eb.
Qed.
End Queue.

Local Arguments count_queued : simpl never.
Local Notation t0 := (RedTable 0 0 0 [::] [::]).
Local Notation b0 := (Buffers [::] [::] [::] [::] [::]).

(** One curve and one table. *)
Lemma count_queued_ok (F : finFieldType) (g : F) p r W M tables junk sched orders k st c i :
  (forall i t0, i < size tables -> usable g p r W M (nth t0 tables i)) ->
  fine tables k st ->
  (forall call i t0, q_first st <= i < size (q_bufs st) ->
     perm_eq (orders call i) (iota 0 (rt_power (nth t0 tables i)).-1)) ->
  in_time (2 * k) sched ->
  curve_over g p r W c -> q_first st <= i < size (q_bufs st) ->
  exists st' c', [/\ count_queued W M tables junk sched orders (st, c) i = Ok (st', c'),
    count W c (nth t0 tables i) = Ok c', fine tables k st' /\ later st st', curve_over g p r W c' &
    c_points c = [::] -> 0 < q_calls st'].
Proof.
move=> Hus Hst Hord Ht Hc Hfi; have /andP[_ Hi] := Hfi; set t := nth _ _ i.
have Him : i < size tables by case: Hst => -[_ Hm _ _] _ _; exact: leq_trans Hi Hm.
have [L [G [emb [[Hrk HL] HW HM HG Htab]]]] : usable g p r W M t := Hus i _ Him.
have Hord' call : perm_eq (orders call i) (iota 0 #|L|.-1).
  by have := Hord call i t0 Hfi; case: Htab => _ _ ->.
have Edev order u0 r0 Ho Hu Hr := @count_device F g p r W M c t L G emb order u0 r0 Hc Hrk HL HW HM HG Htab Ho Hu Hr.
case: c Hc Edev => cp cr cq v pts Hc Edev; have Hc' := Hc.
case: Hc => -[Hg _ Hp Hr0 Hq] [/= Ecp Ecr Ecq] Hv _ /andP[Hsz _].
rewrite Ecp Ecr Ecq in Hc' Edev * => {Ecp Ecr Ecq cp cr cq}.
have [Et _ Epow _ _] := Htab.
rewrite /count_queued (vgetE t0) //= -/t Et eqxx /=.
case Ehas: (has_counted _ _).
  exists st, (Curve p r #|F| v pts); split=> //; first by rewrite /count Et eqxx /= Ehas.
  by move=> E; move: Ehas; rewrite /has_counted /= E.
have HWL : #|L| <= W by move: HW; move: #|L| => n; lia.
have [cs [Ecs Hcs Hall _]] := convert_ok Hg HG Hp Hr0 Hq HL Hrk HWL pts Et (erefl _) Epow Hv.
have Hne : cs != [::] by rewrite -size_eq0 Hcs; lia.
have Hcd : size cs = (degree (Curve p r #|F| v pts)).+1 by rewrite Hcs /degree /= prednK //; lia.
have He u0 r0 : size u0 = (rt_power t).-1 -> size r0 = (rt_power t).-1 ->
    exists u r a b, [/\ evaluate M t cs (orders (q_calls st) i) (u0, r0) = Ok (u, r),
                         host_sum M u = Ok a & host_sum M r = Ok b].
  rewrite Epow => Hu Hr.
  have [u [rr [a [b [E1 E2 E3 _ _]]]]] := evaluate_cpu (proj1 HG) Htab HW HM Hne Hall (Hord' (q_calls st)) Hu Hr.
  by exists u, rr, a, b.
have [u0 [r0 [st' [ab [[Hu Hr] [Hf Hl Hc0] E1 E2]]]]] := count_queue_ok W junk (0, 0) Hst Hi Hcd Ht He.
rewrite Epow in Hu Hr.
have := Edev _ _ _ (Hord' (q_calls st)) Hu Hr.
rewrite /count_with_opencl Et eqxx /= Ehas Ecs /= E2 /= E1 /=.
have Hcs0 : 0 < size cs by rewrite Hcs; lia.
rewrite (vgetE 0) //= (vgetE 0) ?size_rev //= => <-.
by do 2 eexists; split; try by [].
Qed.

Lemma later_trans st1 st2 st3 : later st1 st2 -> later st2 st3 -> later st1 st3.
Proof. by move=> [A1 A2 A3] [B1 B2 B3]; split; [rewrite B1 | rewrite B2 | exact: leq_trans B3]. Qed.

(** The curves of a configuration. *)
Lemma count_curves_ok (F : finFieldType) (g : F) p r W M tables junk sched orders k st curves :
  (forall i t0, i < size tables -> usable g p r W M (nth t0 tables i)) ->
  (forall call i t0, i < size tables -> perm_eq (orders call i) (iota 0 (rt_power (nth t0 tables i)).-1)) ->
  in_time (2 * k) sched -> fine tables k st ->
  (forall c, List.In c curves -> curve_over g p r W c) ->
  exists st' cs, [/\ count_curves W M tables junk sched orders st curves = Ok (st', cs),
    mapM (fun c => foldM (count W) c (take k (drop (q_first st) tables))) curves = Ok cs, fine tables k st', later st st' &
    0 < k -> (exists c cs', curves = c :: cs' /\ c_points c = [::]) -> 0 < q_calls st'].
Proof.
move=> Hus Hord Ht.
have one c st0 : curve_over g p r W c -> fine tables k st0 -> exists st' c',
    [/\ foldM (count_queued W M tables junk sched orders) (st0, c) (iota (q_first st0) k) = Ok (st', c'),
        foldM (count W) c (take k (drop (q_first st0) tables)) = Ok c', fine tables k st', later st0 st' &
        0 < k -> c_points c = [::] -> 0 < q_calls st'].
  suff H j : j <= k -> curve_over g p r W c -> fine tables k st0 -> exists st' c',
      [/\ foldM (count_queued W M tables junk sched orders) (st0, c) (iota (q_first st0) j) = Ok (st', c'),
        foldM (count W) c (take j (drop (q_first st0) tables)) = Ok c', fine tables k st' /\ later st0 st', curve_over g p r W c' &
        0 < j -> c_points c = [::] -> 0 < q_calls st'].
    move=> Hc Hst; have [st' [c' [H1 H2 [H3 H4] _ H5]]] := H _ (leqnn _) Hc Hst.
    by exists st', c'.
  move=> Hk Hc Hst; have [[_ Hm _ _] _ Hfk] := Hst.
  elim: j Hk => [|j IH] Hk; first by rewrite take0; exists st0, c.
  have [st1 [c1 [E1 E2 [F1 L1] C1 P1]]] := IH (ltnW Hk); have [Lf Lb Lc] := L1.
  have Hij : q_first st1 <= q_first st0 + j < size (q_bufs st1) by rewrite Lf Lb -Hfk; lia.
  have Hord1 call i t0 : q_first st1 <= i < size (q_bufs st1) ->
      perm_eq (orders call i) (iota 0 (rt_power (nth t0 tables i)).-1).
    by move=> /andP[_ Hi]; apply: Hord; rewrite Lb in Hi; exact: leq_trans Hi Hm.
  have [st2 [c2 [E3 E4 [F2 L2] C2 P2]]] := count_queued_ok junk Hus F1 Hord1 Ht C1 Hij.
  have L3 := later_trans L1 L2.
  exists st2, c2; split=> //.
  - by rewrite -(addn1 j) iotaD foldM_cat E1 /= E3.
  - rewrite (take_nth t0) ?size_drop; last by move: Hm; rewrite -Hfk; lia.
    by rewrite -cats1 foldM_cat E2 /= nth_drop E4.
  - move=> _ Hp0; case: j {IH Hk Hij E3 E4 E1} E2 P1 => [|j] E2 P1.
      by move: E2; rewrite take0 => -[E]; apply: P2; rewrite -E.
    by case: L2 => _ _ HH; apply: leq_trans HH; apply: P1.
elim: curves st => [|c cs IH] st Hst Hcs; first by exists st, [::]; split=> // _ [c [cs' []]].
have [st1 [c1 [E1 E2 F1 L1 P1]]] := one c st (Hcs c (or_introl (erefl c))) Hst.
have [st2 [cs2 [E3 E4 F2 L2 _]]] := IH st1 F1 (fun d Hd => Hcs d (or_intror Hd)).
have [Lf _ _] := L1; have [_ _ Hfk] := Hst.
exists st2, (c1 :: cs2); split=> //.
- by rewrite /= -Hfk addKn E1 /= E3.
- by rewrite /= E2 /= -Lf E4.
- exact: later_trans L1 L2.
- by move=> Hk [c' [cs' [[<- _] Hp0]]]; case: L2 => _ _; apply: leq_trans; apply: P1.
Qed.

Lemma life_ok (F : finFieldType) (g : F) p r W M tables junk es :
  (forall i t0, i < size tables -> usable g p r W M (nth t0 tables i)) ->
  sumn [seq e_tables e | e <- es] <= size tables ->
  (forall e, List.In e es ->
     [/\ forall call i t0, i < size tables -> perm_eq (e_orders e call i) (iota 0 (rt_power (nth t0 tables i)).-1),
         in_time (2 * e_tables e) (e_sched e) & forall c, List.In c (e_curves e) -> curve_over g p r W c]) ->
  (forall e, List.In e (take (size es).-1 es) -> caught_up e) ->
  exists css, thread_life W M tables junk new_thread es = Ok css /\
    mapM (fun et : epoch * seq redtable => mapM (fun c => foldM (count W) c et.2) (e_curves et.1))
         (zip es (split_tables tables es)) = Ok css.
Proof.
move=> Hus.
suff Hgen st : q_queue st = [::] -> ready tables (q_first st) (size (q_bufs st)) (q_bufs st) [::] ->
    size (q_bufs st) + sumn [seq e_tables e | e <- es] <= size tables ->
    (forall e, List.In e es ->
     [/\ forall call i t0, i < size tables -> perm_eq (e_orders e call i) (iota 0 (rt_power (nth t0 tables i)).-1),
         in_time (2 * e_tables e) (e_sched e) & forall c, List.In c (e_curves e) -> curve_over g p r W c]) ->
    (forall e, List.In e (take (size es).-1 es) -> caught_up e) ->
    exists css, thread_life W M tables junk st es = Ok css /\
      mapM (fun et : epoch * seq redtable => mapM (fun c => foldM (count W) c et.2) (e_curves et.1))
           (zip es (split_tables (drop (size (q_bufs st)) tables) es)) = Ok css.
  by move=> Hsum Hes Hup; have := Hgen new_thread; rewrite /= drop0; apply.
elim: es st => [|e es IH] st Eq H Hsum Hes Hup; first by exists [::].
have [He1 He2 He3] := Hes e (or_introl (erefl e)).
move: Hsum => /=; set n := size (q_bufs st) => Hsum.
have Hk : n + e_tables e <= size tables by lia.
have [A1 [A2 A2'] A3 A4] := configure_ready junk H Eq Hk.
set st1 := configure _ _ _ _ in A1 A2 A2' A3 A4 *.
have F1 : fine tables (e_tables e) st1 by split; rewrite ?A2 ?A2' ?A4 // A3.
have [st2 [cs [E1 E2 F2 [L1 L2 L3] P2]]] := count_curves_ok junk Hus He1 He2 F1 He3.
rewrite A2 -/n in E2; rewrite /= E1 /=.
have [R2 Q2 _] := F2.
have := R2; rewrite -{1}(cat_take_drop (e_idle e) (q_queue st2)) => R3.
have [bs [Eb R4 _]] := exec_inits M None R3; have [Sb _ _ _] := R4.
rewrite /advance Eb /=.
set st3 := QState _ _ _ _.
case: (boolP (nilp es)) => [/nilP->|Hne]; first by exists [:: cs]; split=> //=; rewrite E2.
have {}Hne : size es = (size es).-1.+1 by rewrite prednK // lt0n.
rewrite /= Hne /= in Hup.
have Eq3 : q_queue st3 = [::].
  rewrite /st3 /=; apply: drop_oversize; apply: (leq_trans Q2).
  case: (Hup e (or_introl (erefl e))) => [Hid|[Hk0 Hfr]]; first by case: ifP.
  by have := P2 Hk0 Hfr; case: (q_calls st2).
have [||||css [E3 E4]] := IH st3 Eq3 => //=.
- by rewrite Sb; move: R4; rewrite /= in Eq3; rewrite Eq3.
- by rewrite Sb L2 A3 -/n; move: Hsum => /=; lia.
- by move=> e' He'; apply: Hes; right.
- by move=> e' He'; apply: Hup; right.
exists (cs :: css); rewrite E3 /=; split=> //.
rewrite E2 /=; move: E4; rewrite /= Sb L2 A3 -/n drop_drop [e_tables e + n]addnC => ->.
by [].
Qed.

(** ** Late devices *)
Lemma life_undef (F : finFieldType) (g : F) p r W M tables junk st e es c curves st1 :
  (forall i t0, i < size tables -> usable g p r W M (nth t0 tables i)) ->
  e_curves e = c :: curves -> curve_over g p r W c -> c_points c = [::] ->
  st1 = configure tables junk st (e_tables e) ->
  q_first st1 < size (q_bufs st1) <= size tables ->
  (forall cs, size cs = (degree c).+1 ->
     count_queue W M tables junk (e_sched e) (e_orders e) st1 (q_first st1) (degree c) cs (0, 0) = Undef) ->
  thread_life W M tables junk st (e :: es) = Undef.
Proof.
move=> Hus Ec Hc Hp0 Est /andP[Hi Hm] Hcq; rewrite /= Ec -Est /=.
have Him := leq_trans Hi Hm.
suff E : count_queued W M tables junk (e_sched e) (e_orders e) (st1, c) (q_first st1) = Undef.
  have -> : size (q_bufs st1) - q_first st1 = (size (q_bufs st1) - q_first st1).-1.+1 by lia.
  by rewrite /= E.
set t := nth t0 tables (q_first st1).
have [L [G [emb [[Hrk HL] HW HM HG Htab]]]] : usable g p r W M t := Hus _ _ Him.
case: c Ec Hc Hp0 Hcq => cp cr cq v pts _ Hc /= -> Hcq.
case: Hc => -[Hg _ Hp Hr0 Hq] [/= Ecp Ecr Ecq] Hv _ /andP[Hsz _].
rewrite Ecp Ecr Ecq in Hcq *.
have [Et _ Epow _ _] := Htab.
rewrite /count_queued (vgetE t0) //= -/t Et eqxx /=.
have HWL : #|L| <= W by move: HW; move: #|L| => n; lia.
have [cs [-> Hcs Hall _]] := convert_ok Hg HG Hp Hr0 Hq HL Hrk HWL [::] Et (erefl _) Epow Hv.
by rewrite /= Hcq // Hcs /degree /= prednK //; lia.
Qed.

Lemma late_advances M tables n1 n2 param st c1 c2 : n1 + n2 <= size (q_queue st) ->
  (st1 <- advance M tables n1 param (put st c1) ;; advance M tables n2 param (put st1 c2)) =
  (bs <- foldM (exec M tables (q_first st) param) (q_bufs st) (take (n1 + n2) (q_queue st)) ;;
   Ok (QState (drop (n1 + n2) (q_queue st) ++ [:: c1; c2]) bs (q_calls st) (q_first st))).
Proof.
case: st => q bs k f /= Hn; rewrite /advance /put /= -!cats1.
have H1 : n1 <= size q by lia.
rewrite take_cat drop_cat.
have E : (if n1 < size q then take n1 q else q ++ take (n1 - size q) [:: c1]) = take n1 q.
  case: ltnP => // H; have -> : n1 = size q by lia.
  by rewrite subnn take_size cats0.
have E' : (if n1 < size q then drop n1 q ++ [:: c1] else drop (n1 - size q) [:: c1]) = drop n1 q ++ [:: c1].
  case: ltnP => // H; have -> : n1 = size q by lia.
  by rewrite subnn drop_size.
rewrite E E' takeD foldM_cat; case: (foldM _ _ (take n1 q)) => //= bs1.
have H2 : n2 <= size (drop n1 q) by rewrite size_drop; lia.
by rewrite -cats1 -catA take_cat drop_cat addnC -drop_drop; move: H2; rewrite leq_eqVlt => /orP[/eqP->|->] //;
  rewrite ltnn subnn take0 drop0 cats0 take_size drop_size.
Qed.

Lemma late_undef (F : finFieldType) (g : F) p r W M tables junk e es c curves :
  (forall i t0, i < size tables -> usable g p r W M (nth t0 tables i)) ->
  0 < e_tables e <= size tables -> (e_sched e 0).1 + (e_sched e 0).2 <= 2 * e_tables e ->
  e_curves e = c :: curves -> curve_over g p r W c -> c_points c = [::] ->
  thread_life W M tables junk new_thread (e :: es) = Undef.
Proof.
move=> Hus /andP[Hk Hkm] Hn Ec Hc Hp0.
have H0 : ready tables (q_first new_thread) (size (q_bufs new_thread)) (q_bufs new_thread) [::] by split.
have [H [E0f E0] Sb Sq] := configure_ready junk H0 (erefl _) Hkm.
apply: (@life_undef F g p r W M tables junk new_thread e es c curves _ Hus Ec Hc Hp0 (erefl _)).
  by rewrite E0f Sb /= add0n Hk.
rewrite E0f => cs Hcs.
set st0 := configure _ _ _ _ in H E0 Sb Sq E0f *; set d := degree c in Hcs *.
have Hi : 0 < size (q_bufs st0) by rewrite Sb.
rewrite -E0f in H.
rewrite /count_queue; have [st1 [-> H1 _ Eq [Ec1 Ef1]]] := need_ok junk d H Hi; rewrite /=.
set sch := e_sched e in Hn *; set orders := e_orders e.
have Hn' : (sch 0).1 + (sch 0).2 <= size (q_queue st1) by rewrite Eq Sq.
move: H1; rewrite -{1}(cat_take_drop ((sch 0).1 + (sch 0).2) (q_queue st1)) => H1.
have [bs [Ebs H2 _]] := exec_inits M (Some (0, cs)) H1.
have -> : enqueue_count M tables sch orders st1 0 d cs =
    Ok (QState (drop ((sch 0).1 + (sch 0).2) (q_queue st1) ++ [:: WriteCoeffs 0 d 0; RunKernel 0 d (orders 0 0)]) bs 1 (q_first st0)).
  rewrite /enqueue_count Hcs eqxx /= Ec1 E0.
  have := late_advances M tables (Some (0, cs)) (WriteCoeffs 0 d 0) (RunKernel 0 d (orders 0 0)) Hn'.
  rewrite Ef1 Ebs /=; case: (advance _ _ _ _ _) => //= st2.
  by case: (advance _ _ _ _ _) => //= st3 [->].
rewrite -{1}(cats0 (drop _ _)) in H2; have [bs2 [E2 [Es _ _ _] _]] := exec_inits M None H2.
rewrite /= /read_sum (vgetE t0) ?(leq_trans Hk) //= /advance /= take_size foldM_cat E2 /=.
by rewrite /exec (vgetE b0) ?Es.
Qed.

(** The device executes a copy of a table that is gone. *)
Definition dead st := if q_queue st is c :: _ then
  match c with WriteRed j | WriteInc j => j < q_first st | _ => false end else false.

Lemma dead_advance M tables n param st : dead st ->
  advance M tables n param st = Undef \/ n = 0 /\ advance M tables n param st = Ok st.
Proof.
case: st => -[|c q] bs k f //=; rewrite /dead /= => Hd; case: n => [|n]; first by right.
by left; rewrite /advance /=; case: c Hd => //= j ->.
Qed.

Lemma dead_put st c : dead st -> dead (put st c).
Proof. by case: st => -[|c' q] bs k f. Qed.

Lemma dead_count W M tables junk sched orders st i d cs pts : dead st -> i < size (q_bufs st) -> i < size tables ->
  size cs = d.+1 -> count_queue W M tables junk sched orders st i d cs pts = Undef.
Proof.
move=> Hd Hi Him Hcs; rewrite /count_queue.
have [st1 [-> Hd1]] : exists st1, need_kernel tables junk st i d = Ok st1 /\ dead st1.
  rewrite /need_kernel (vgetE b0) //=; case: (sm_find _ _) => [v|]; first by exists st.
  by rewrite (vsetE b0) //=; eexists.
rewrite /= /enqueue_count Hcs eqxx /=.
have [-> //|[_ ->]] := dead_advance M tables (sched (q_calls st1)).1 (Some (q_calls st1, cs)) (dead_put (WriteCoeffs i d (q_calls st1)) Hd1); rewrite /=.
have [-> //|[_ ->]] := dead_advance M tables (sched (q_calls st1)).2 (Some (q_calls st1, cs))
  (dead_put (RunKernel i d (orders (q_calls st1) i)) (dead_put (WriteCoeffs i d (q_calls st1)) Hd1)).
rewrite /= /read_sum (vgetE t0) //=; set st2 := QState _ _ _ _.
have Hd2 : dead st2 by move: Hd1; rewrite /dead /st2 /=; case: (q_queue st1).
have [-> //|[Hs _]] := dead_advance M tables (size (q_queue st2)) None Hd2.
by move: Hs; rewrite /st2 /= !size_rcons.
Qed.

Lemma life_cons W M tables junk st e es : thread_life W M tables junk st (e :: es) =
  (sc <- count_curves W M tables junk (e_sched e) (e_orders e) (configure tables junk st (e_tables e)) (e_curves e) ;;
   st <- advance M tables (e_idle e) None sc.1 ;;
   css <- thread_life W M tables junk st es ;; Ok (sc.2 :: css)).
Proof. by []. Qed.

Lemma stale_undef (F : finFieldType) (g : F) p r W M tables junk e1 e2 es c curves :
  (forall i t0, i < size tables -> usable g p r W M (nth t0 tables i)) ->
  e_tables e1 + e_tables e2 <= size tables -> e_curves e1 = [::] -> e_idle e1 < 2 * e_tables e1 -> 0 < e_tables e2 ->
  e_curves e2 = c :: curves -> curve_over g p r W c -> c_points c = [::] ->
  thread_life W M tables junk new_thread (e1 :: e2 :: es) = Undef.
Proof.
move=> Hus Hkm Ec1 Hid Hk2 Ec2 Hc Hp0.
have H0 : ready tables (q_first new_thread) (size (q_bufs new_thread)) (q_bufs new_thread) [::] by split.
have Hk1m : size (q_bufs new_thread) + e_tables e1 <= size tables by rewrite /=; lia.
have [H [Ef E0] Sb Sq] := configure_ready junk H0 (erefl _) Hk1m.
rewrite life_cons Ec1 {1}/count_curves {1}/bind; set st1 := configure _ _ _ _ in H Ef E0 Sb Sq *.
rewrite -Ef -{1}(cat_take_drop (e_idle e1) (q_queue st1)) in H.
have [bs [Eb [Sbs Hm Hall _] _]] := exec_inits M None H.
have -> : advance M tables (e_idle e1) None (st1, [::] : seq curve).1 =
    Ok (QState (drop (e_idle e1) (q_queue st1)) bs (q_calls st1) (q_first st1)) by rewrite /advance /= Eb.
set st2 := QState _ _ _ _.
suff E : thread_life W M tables junk st2 (e2 :: es) = Undef by rewrite /bind E.
have Hn : size (q_bufs st2) + e_tables e2 <= size tables by rewrite /= Sbs Sb /=; lia.
have Hq2 : 0 < size (q_queue st2) by rewrite /= size_drop Sq; lia.
have shape ts st : let st' := foldl (add_table junk) st ts in
    [/\ q_first st' = q_first st, size (q_bufs st') = size (q_bufs st) + size ts & exists q, q_queue st' = q_queue st ++ q].
  elim: ts st => [|t ts IH] st /=; first by rewrite addn0; split=> //; exists [::]; rewrite cats0.
  have [-> -> [q ->]] := IH (add_table junk st t); rewrite /= size_rcons addSnnS; split=> //.
  by eexists; rewrite -!cats1 -!catA.
have [S1 S2 [q S3]] := shape (take (e_tables e2) (drop (size (q_bufs st2)) tables))
  (QState (q_queue st2) (q_bufs st2) 0 (size (q_bufs st2))).
have Sk : size (take (e_tables e2) (drop (size (q_bufs st2)) tables)) = e_tables e2 by rewrite size_takel // size_drop; lia.
apply: (@life_undef F g p r W M tables junk st2 e2 es c curves _ Hus Ec2 Hc Hp0 (erefl _)); rewrite /configure S1 ?S2 ?Sk /=.
  by move: Hn => /= Hn; rewrite Hn andbT; lia.
move=> cs Hcs; apply: dead_count => //.
- rewrite /dead S3 S1 /=; move: Hq2 Hall; rewrite /st2 /=; case: (drop _ _) => //= c0 q0 _ /andP[Hc0 _].
  by case: c0 Hc0 => //= j /andP[_]; rewrite Sbs.
- by rewrite S2 Sk /=; lia.
- by move: Hn => /=; lia.
Qed.
