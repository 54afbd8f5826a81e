(** Executions with critical sections taken apart end if no thread is kept out of them. *)
Set Warnings "-notation-overridden,-ambiguous-paths".
From mathcomp Require Import all_ssreflect zify.
From Verif Require Import Res ResFacts OMap Store StoreSpec Pool Standalone StandaloneSpec StandaloneTheorems Progress Lost
  Fine FineSpec FineProofs FineTheorems.

Set Implicit Arguments.
Unset Strict Implicit.
Unset Printing Implicit Defensive.

Section Ends.
Variable contrib : nat -> block -> store.
Notation R := (R contrib).

Definition micn (m : tmicro) : bool := if m is MNone then true else false.
Definition mainn (m : mmicro) : bool := if m is NNone then true else false.
Lemma micn_eq m : micn m -> m = MNone. Proof. by case: m. Qed.

(** The steps at which the system of Standalone.v advances, too. *)
Definition tdone (f : fstate) (t : nat) (f' : fstate) : bool :=
  micn (mic f' t) && (micn (mic f t) ==> ~~ blocked f (Some t)).
Definition mdone (f : fstate) (f' : fstate) : bool :=
  match f_main f with
  | NAssign4 _ => true
  | NAssign6 => false
  | NNone => mainn (f_main f') && ~~ blocked f None
  | _ => mainn (f_main f')
  end.

Lemma mic_set f t m x : mic (FState x (f_pool f) (f_static f) (f_data f) (f_main f) (set_nth MNone (f_thr f) t m)) t = m.
Proof. by rewrite /mic /= nth_set_nth /= eqxx. Qed.

Lemma thread_adv f c t f' c1 : R f c -> t < size (p_threads (f_proc f)) -> fthread contrib f t = Ok f' -> tdone f t f' ->
  step contrib c (Step t) = Ok c1 -> exists2 c', step contrib c (Step t) = Ok c' & R f' c'.
Proof.
move=> HR Ht Hf /andP[Hn Hb] Hc1; have [f2 Hf2 Hsim] := step_sim HR Hc1.
rewrite /fstep Hf in Hf2; case: Hf2 => E; rewrite -{}E in Hsim; case: Hsim => [HR'|//].
have [_ Eph] := R_core HR t; have [_ Eph'] := R_core HR' t; rewrite -{}Eph in Eph'.
have Htok := R_tok HR t.
have Hset x : thr_at (upd (f_proc f) t x) t = x by rewrite /thr_at /= nth_set_nth /= eqxx.
move: Hf; rewrite /fthread Ht -/(mic f t) -/(thr_at _ t).
case Em: (mic f t) Hb Htok => [||sh|sh e||z|[b d]||i||t'|||] Hb Htok.
- move: Hb; rewrite /= /blocked -/(thr_at _ t); case Ep: (t_phase _) => [||||b [d|]|b|] //= Hb.
  + by rewrite /acquire; case: (nth None _ t) Hb => // _ [E]; rewrite -E /mic /= nth_set_nth /= eqxx in Hn.
  + move=> H; have [p' Hp' [E]] := bind_Ok_inv H; move: Hp'; rewrite /thread_step Ht -/(thr_at _ t) Ep => -[E'].
    by move: Eph'; rewrite -E -E' /fset_proc /f_proc /= Hset Ep.
  + move=> H; exists c => //; move: Hc1; rewrite /step /thread_step -(R_size HR) Ht -/(thr_at _ t).
    by have [_ <-] := R_core HR t; rewrite Ep /= with_proc_id.
  + by rewrite /acquire; case: (nth None _ t) Hb => // _ [E]; rewrite -E /mic /= nth_set_nth /= eqxx in Hn.
  + by rewrite /acquire; case: (f_static f) Hb => // _ [E]; rewrite -E /mic /= nth_set_nth /= eqxx in Hn.
  + by rewrite /acquire; case: (f_pool f) Hb => // _ [E]; rewrite -E /mic /= nth_set_nth /= eqxx in Hn.
  + move=> H; exists c => //; move: Hc1; rewrite /step /thread_step -(R_size HR) Ht -/(thr_at _ t).
    by have [_ <-] := R_core HR t; rewrite Ep /= with_proc_id.
- by rewrite /owning; case: ifP => // _ [E]; rewrite -E /mic /= nth_set_nth /= eqxx in Hn.
- by rewrite /owning; case: ifP => // _ [E]; rewrite -E /mic /= nth_set_nth /= eqxx in Hn.
- rewrite /owning; case: ifP => // _ [E]; move: Eph'; rewrite -E /fset_proc /f_proc /= Hset /=.
  have [_ ->] := R_core HR t; rewrite Htok; by case: (sh) => //; case: (e).
- rewrite /owning; case: ifP => // _; case: (t_queue _) => // z q [E]; by rewrite -E /mic /= nth_set_nth /= eqxx in Hn.
- rewrite /owning; case: ifP => // _; case: (t_queue _) => // z' q [E]; by rewrite -E /mic /= nth_set_nth /= eqxx in Hn.
- rewrite /owning; case: ifP => // _ [E]; move: Eph'; rewrite -E /fset_proc /f_proc /= Hset /=.
  by have [_ ->] := R_core HR t; rewrite Htok.
- by rewrite /owning; case: ifP => // _ [E]; rewrite -E /mic /= nth_set_nth /= eqxx in Hn.
- rewrite /owning; case: ifP => // _; case: ifP => _; first by move=> [E]; rewrite -E /mic /= nth_set_nth /= eqxx in Hn.
  have [b [d Eb]] := Htok; have [_ Ec] := R_core HR t; rewrite Ec Eb => -[E]; move: Eph'.
  by rewrite Ec Eb -E /fset_proc /f_proc /thr_at /= nth_set_nth /= eqxx.
- rewrite /owning; case: ifP => // _; case: (om_find _ _ _) => // t' [E]; by rewrite -E /mic /= nth_set_nth /= eqxx in Hn.
- by rewrite /owning; case: ifP => // _ [E]; rewrite -E /mic /= nth_set_nth /= eqxx in Hn.
- by rewrite /owning; case: ifP => // _ [E]; rewrite -E /mic /= nth_set_nth /= eqxx in Hn.
- by rewrite /owning; case: ifP => // _ [E]; rewrite -E /mic /= nth_set_nth /= eqxx in Hn.
- rewrite /owning; case: ifP => // _ [E]; move: Eph'; rewrite -E /fset_proc /f_proc /= Hset /=.
  by have [_ ->] := R_core HR t; case: Htok => b ->.
Qed.

(** The members of the main thread. *)
Lemma ctl f c : R f c -> [/\ s_pc (f_st f) = s_pc c, prog (f_st f) = prog c, file_store (f_st f) = file_store c,
  assigned (f_st f) = assigned c & nocl (f_st f) = nocl c /\ ncpu (f_st f) = ncpu c].
Proof. by move=> HR; rewrite (R_st HR). Qed.

Lemma main_adv f c save f' c1 : R f c -> fmain f save = Ok f' -> mdone f f' -> main_step c save = Ok c1 ->
  exists2 c', main_step c save = Ok c' & R f' c'.
Proof.
move=> HR Hf Hd Hc1; have [f2 Hf2 Hsim] := @step_sim contrib f c (Main save) c1 HR Hc1.
rewrite /fstep Hf in Hf2; case: Hf2 => E; rewrite -{}E in Hsim; case: Hsim => [HR'|//].
have [Epc Epr Efs Eas [Eno Enc]] := ctl HR; have [Epc' Epr' Efs' Eas' _] := ctl HR'; have Hmok := R_mok HR.
move: Hf Hd Hmok; rewrite /fmain /mdone.
case Em: (f_main f) => [||bs|bs|i x o|x o||t|t|t|t||||r|r|r st|r st||] Hf Hd Hmok //.
- move: Hf; case/andP: Hd; rewrite /blocked Epc; have Hlock h k n x : ~~ mainn n -> mainn (f_main f') -> ~~ isSome h ->
      acquire f h None (FState (f_st f) k x (f_data f) n (f_thr f)) = Ok f' -> False.
    by move=> Hn Hm; case: h => // _ [E]; move: Hn Hm; rewrite -E /= => /negbTE->.
  case Hpc: (s_pc c) => [|b|b|b|b|b|t b|k|k|k r st|k r|k|t|t|t|] Hm Hb.
  + rewrite /main_step Epc Hpc Epr; case Ep: (prog c) => [|[d e|b|] cs] /=.
    * by move=> _; exists c => //; rewrite /main_step Hpc Ep.
    * by move=> [E]; move: Epc'; rewrite -E Hpc.
    * by move=> [E]; move: Epc'; rewrite -E Hpc.
    * by move=> [E]; move: Epc'; rewrite -E Hpc.
  + by rewrite /main_step Epc Hpc => -[E]; move: Epc'; rewrite -E Hpc /=; case: (save).
  + rewrite /main_step Epc Hpc Efs; case: (file_store c) => // -[d r] [E]; move: Epc'; rewrite -E Hpc /=.
    by case: ifP => // _; case: ifP.
  + by move=> H; case: (Hlock _ _ _ _ _ Hm Hb H).
  + by move=> H; case: (Hlock _ _ _ _ _ Hm Hb H).
  + by case: ifP => // _ H; case: (Hlock _ _ _ _ _ Hm Hb H).
  + by rewrite /main_step Epc Hpc => -[E]; move: Epc'; rewrite -E Hpc.
  + by move=> H; case: (Hlock _ _ _ _ _ Hm Hb H).
  + move: Hb; rewrite Efs; case Ef: (file_store c) => [x|] Hb.
      by move=> H; case: (Hlock _ _ _ _ _ Hm Hb H).
    by rewrite /main_step Epc Hpc Efs Ef => -[E]; move: Epc'; rewrite -E Hpc.
  + by rewrite /main_step Epc Hpc => -[E]; move: Epc'; rewrite -E Hpc.
  + by rewrite /main_step Epc Hpc => -[E]; move: Epc'; rewrite -E Hpc.
  + by rewrite /main_step Epc Hpc; case: (k) => [b|d e|] -[E]; move: Epc'; rewrite -E Hpc.
  + move: Hb; rewrite (R_size HR); case: ltnP => Ht Hb.
      by rewrite /acquire; case: (nth None _ _) Hb => // _ [E]; move: Hm; rewrite -E.
    rewrite /main_step Epc Hpc -/(f_proc f) (R_size HR) ltnNge Ht => -[E]; move: Epc'; by rewrite -E Hpc.
  + by rewrite /main_step Epc Hpc => -[E]; move: Epc'; rewrite -E Hpc.
  + rewrite /main_step Epc Hpc -/(f_proc f) -/(thr_at _ _); have [_ Eph] := R_core HR t; rewrite Eph.
    case Ex: (t_phase _) => [||||b d|b|]; try by move=> _; exists c => //; rewrite /main_step Hpc -/(thr_at _ _) Ex.
    by move=> [E]; move: Epc'; rewrite -E Hpc.
  + by move=> _; exists c => //; rewrite /main_step Hpc.
- by move: Hf; rewrite /owning; case: ifP => // _ [E]; move: Hd; rewrite -E.
- by move: Hf; rewrite /owning; case: ifP => // _ [E]; move: Hd; rewrite -E.
- (* NFin2 *)
  have Hown : f_pool f = Some None by apply/eqP; rewrite (R_lP HR) /= Em.
  have := R_P HR; rewrite /relP Hown Em => -[Ebs [E1 E2 E3 E4]].
  move: Hf; rewrite Hown /owning eqxx /after_finished => H; have [s2 H2 [E]] := bind_Ok_inv H.
  have [s3 H3 [E']] := bind_Ok_inv H2.
  have Hp3 : s_pc s3 = s_pc c /\ s_proc s3 = f_proc f.
    have Hgen bs' s s' : foldM finished_block s bs' = Ok s' -> s_pc s' = s_pc s /\ s_proc s' = s_proc s.
      elim: bs' s => [|b bs' IH] s /=; first by case=> <-.
      rewrite {1}/finished_block; case: ifP => // _ /=; exact: IH.
    by have [] := Hgen _ _ _ H3; rewrite Epc.
  case: Hmok => [[b Hpc]|[k Hpc]].
    by move: Epc'; rewrite -E /= -E' Hp3.1 Hpc.
  have Hbs : bs = [::].
    have Hfree : f_pool f' = None by rewrite -E.
    have := R_P HR'; rewrite /relP Hfree => -[_ _ _ E4']; rewrite Ebs -E4' -E /f_proc /= -E'.
    by case: (s_pc s3) => /=; rewrite Hp3.2.
  have Es3 : s3 = f_st f by move: H3; rewrite Hbs /= => -[].
  have Has : assigned c <> [::].
    by move: Epc'; rewrite -E /= -E' Es3 Epc Hpc /= Eas; case: (assigned c).
  exists c => //; rewrite /main_step Hpc /flush_finished_blocks /flush_finished -Ebs Hbs /=.
  case: (assigned c) Has => // b l _; congr Ok.
  rewrite /goto /with_proc /= -Hpc; case: (c) Ebs => [[]] /= *; congr State; congr Proc; congruence.
- by move: Hf; rewrite /owning; case: ifP => // _; case: ifP => _; [case: ifP => _|]; case=> E; move: Hd; rewrite -E.
- move: Hf; rewrite /owning; case: ifP => // _ [E]; case: Hmok => b Hpc; move: Epc'.
  by rewrite -E /= /after_ready Epc Hpc /=; case: ifP.
- move: Hf; rewrite /owning; case: ifP => // _; case: (p_idle _) => // t0 l; case: ifP => _ [E]; move: Hd; by rewrite -E.
- move=> {Hc1}; have [thr _] := bind_Ok_inv Hf; case: ifP => // _; rewrite /owning; case: ifP => // _ [E]; move: Hd; by rewrite -E.
- move: Hf; rewrite /acquire; case: (nth None _ _) => [a|]; [case: ifP => // _|]; case=> E; move: Hd; rewrite -E //.
  by rewrite Em.
- by move: Hf; rewrite /owning; case: ifP => // _ [E]; move: Hd; rewrite -E.
- move: Hf; rewrite /owning; case: ifP => // _ [E]; case: Hmok => [[b Hpc] _]; move: Epc'.
  by rewrite -E /= /after_push Hpc /=.
- by have [s2 _ [E]] := bind_Ok_inv Hf; move: Hd; rewrite -E.
- by move: Hf; rewrite /owning; case: ifP => // _ [E]; move: Hd; rewrite -E.
- by move: Hf; rewrite /owning; case: ifP => // _ [E]; move: Hd; rewrite -E.
- by move: Hf; rewrite /owning; case: ifP => // _ [E]; move: Hd; rewrite -E.
- by move: Hf; rewrite /owning; case: ifP => // _ [E]; move: Hd; rewrite -E.
- move: Hf; rewrite /owning; case: ifP => // _ [E]; case: Hmok => [[k Hpc] _]; move: Epc'.
  by rewrite -E /= Epc Hpc.
- by move: Hf; case: (s_pc _) => // t; rewrite /owning; case: ifP => // _ [E]; move: Hd; rewrite -E.
- move: Hf; case: Hmok => t Hpc _; rewrite Epc Hpc /owning; case: ifP => // _ [E]; move: Epc'.
  by rewrite -E /= Hpc.
Qed.

(** ** Who changes which position *)
Lemma thread_others f t f' : fthread contrib f t = Ok f' ->
  f_main f' = f_main f /\ forall t', t' != t -> mic f' t' = mic f t'.
Proof.
have Hset m t' : t' != t -> nth MNone (set_nth MNone (f_thr f) t m) t' = mic f t'.
  by move=> Hne; rewrite nth_set_nth /= (negbTE Hne).
rewrite /fthread; case: ifP => [_|_ [<-] //]; rewrite /owning /acquire.
have P1 x y z u v : Ok (FState x y z u (f_main f) (set_nth MNone (f_thr f) t v)) = Ok f' ->
    f_main f' = f_main f /\ forall t', t' != t -> mic f' t' = mic f t'.
  by move=> [<-]; split=> //= t' Hne; exact: Hset.
have P2 : Ok f = Ok f' -> f_main f' = f_main f /\ forall t', t' != t -> mic f' t' = mic f t' by case=> <-.
case: (nth MNone (f_thr f) t) => [||sh|sh e||z|[b d]||i||t'|||].
- case: (t_phase _) => [||||b [d|]|b|] //; try (case: (nth None _ _) => [a|]; last exact: P1; case: ifP => // _; exact: P2).
  + by move=> H; have [p' _ [<-]] := bind_Ok_inv H.
  + by move=> H; have [p' _ [<-]] := bind_Ok_inv H.
  + by case: (f_static f) => [a|]; [case: ifP => // _; exact: P2 | exact: P1].
  + by case: (f_pool f) => [a|]; [case: ifP => // _; exact: P2 | exact: P1].
  + by move=> H; have [p' _ [<-]] := bind_Ok_inv H.
- by case: ifP => // _; exact: P1.
- by case: ifP => // _; exact: P1.
- by case: ifP => // _; exact: P1.
- by case: ifP => // _; case: (t_queue _) => // x q; exact: P1.
- by case: ifP => // _; case: (t_queue _) => // x q; exact: P1.
- by case: ifP => // _; exact: P1.
- by case: ifP => // _; exact: P1.
- case: ifP => // _; case: ifP => _; first exact: P1.
  by case: (t_phase _) => // b d [<-]; split=> //= t' Hne; exact: Hset.
- by case: ifP => // _; case: (om_find _ _ _) => // x; exact: P1.
- by case: ifP => // _; exact: P1.
- by case: ifP => // _; exact: P1.
- by case: ifP => // _; exact: P1.
- by case: ifP => // _; exact: P1.
Qed.

Definition entered (m : mmicro) : bool := match m with NNone | NAssign5 | NAssign6 => false | _ => true end.

Lemma main_others f save f' : fmain f save = Ok f' ->
  [/\ f_thr f' = f_thr f, f_main f = NNone -> mainn (f_main f') || entered (f_main f') &
      entered (f_main f) -> entered (f_main f') || mdone f f'].
Proof.
rewrite /fmain /mdone /owning /acquire.
case E: (f_main f) => [||bs|bs|i x o|x o||t|t|t|t||||r|r|r st|r st||].
- have P0 : bind (main_step (f_st f) save) (fun x => Ok (fset_st f x)) = Ok f' ->
    [/\ f_thr f' = f_thr f, NNone = NNone -> mainn (f_main f') || entered (f_main f') &
      entered NNone -> entered (f_main f') || mainn (f_main f') && ~~ blocked f None].
    by move=> H; have [p' _ [<-]] := bind_Ok_inv H; split=> //=; rewrite E.
  have P1 x y z n : entered n -> Ok (FState x y z (f_data f) n (f_thr f)) = Ok f' ->
    [/\ f_thr f' = f_thr f, NNone = NNone -> mainn (f_main f') || entered (f_main f') &
      entered NNone -> entered (f_main f') || mainn (f_main f') && ~~ blocked f None].
    by move=> Hn [<-]; split=> //=; rewrite Hn orbT.
  have P2 : Ok f = Ok f' -> [/\ f_thr f' = f_thr f, NNone = NNone -> mainn (f_main f') || entered (f_main f') &
      entered NNone -> entered (f_main f') || mainn (f_main f') && ~~ blocked f None].
    by case=> <-; rewrite E.
  case: (s_pc _) => [|b|b|b|b|b|t b|k|k|k r st|k r|k|t|t|t|]; try exact: P0.
  + by case: (f_pool f) => [a|]; [case: ifP => // _; exact: P2 | exact: P1].
  + by case: (f_pool f) => [a|]; [case: ifP => // _; exact: P2 | exact: P1].
  + by case: ifP => // _; case: (f_pool f) => [a|]; [case: ifP => // _; exact: P2 | exact: P1].
  + by case: (f_pool f) => [a|]; [case: ifP => // _; exact: P2 | exact: P1].
  + by case: (file_store _) => [x|]; last exact: P0; case: (f_static f) => [a|]; [case: ifP => // _; exact: P2 | exact: P1].
  + case: ifP => _; last exact: P0; case: (nth None _ _) => [a|]; first by case: ifP => // _; exact: P2.
    by case=> <-.
- by case: ifP => // _ [<-].
- by case: ifP => // _ [<-].
- by case: ifP => // _ H; have [s2 _ [<-]] := bind_Ok_inv H.
- by case: ifP => // _; case: ifP => _; [case: ifP => _|]; case=> <-.
- by case: ifP => // _ [<-].
- by case: ifP => // _; case: (p_idle _) => // t0 l; case: ifP => _ [<-].
- by move=> H; have [thr _] := bind_Ok_inv H; case: ifP => // _; case: ifP => // _ [<-].
- by case: (nth None _ _) => [a|]; [case: ifP => // _|]; case=> <-; rewrite ?E.
- by case: ifP => // _ [<-].
- by case: ifP => // _ [<-]; split=> // _; rewrite orbT.
- by move=> H; have [s2 _ [<-]] := bind_Ok_inv H.
- by case: ifP => // _ [<-].
- by case: ifP => // _ [<-].
- by case: ifP => // _ [<-].
- by case: ifP => // _ [<-].
- by case: ifP => // _ [<-].
- by case: ifP => // _ [<-].
- by case: (s_pc _) => // t; case: ifP => // _ [<-].
- by case: (s_pc _) => // t; case: ifP => // _ [<-].
Qed.

(** ** One step *)
Definition adone (f : fstate) (a : action) (f' : fstate) : bool :=
  match a with
  | Main _ => mdone f f'
  | Step t => (t < size (p_threads (f_proc f))) && tdone f t f'
  | Wake _ => true
  end.

Lemma step_bit f c a c1 f' : R f c -> step contrib c a = Ok c1 -> fstep contrib f a = Ok f' ->
  exists (m : bool) c', [/\ run contrib c (if m then [:: a] else [::]) = Ok c', R f' c' & adone f a f' -> m].
Proof.
move=> HR Hc Hf; have [f2 Hf2 Hs] := step_sim HR Hc; move: Hf2; rewrite Hf => -[E]; rewrite -{}E {f2} in Hs.
have adv (b : bool) : (exists2 c', step contrib c a = Ok c' & R f' c') ->
    exists (m : bool) c', [/\ run contrib c (if m then [:: a] else [::]) = Ok c', R f' c' & b -> m].
  by move=> [c' H1 H2]; exists true, c'; split=> //; rewrite /run /= H1.
have [Hd|Hd] := boolP (adone f a f'); last first.
  by case: Hs => [HR'|]; [exists false, c | exact: adv].
case: a Hc Hf Hd Hs adv => [save|t|t] Hc Hf Hd Hs adv; apply: adv.
- exact: (main_adv HR Hf Hd Hc).
- by case/andP: Hd => Ht Hd; exact: (thread_adv HR Ht Hf Hd Hc).
- by eexists; [reflexivity | case: Hf => <-; exact: wake_sim].
Qed.


(** ** Rounds *)
Lemma all_mask' (T : Type) (p : pred T) m s : all p s -> all p (mask m s).
Proof. by elim: m s => [|[] m IH] [|x s] //= /andP[H1 H2]; rewrite ?H1 IH. Qed.

Section Start.
Hypothesis Hmap : forall c b, is_map (contrib c b).
Variables (jobs : seq job) (fs : seq file) (kinds : seq bool).
Hypothesis Hwf : jobs_wf jobs.
Hypothesis Hn : 0 < size kinds.
Notation s0 := (start kinds fs (main_program jobs)).

Definition reached (c : state) : Prop := exists l, run contrib s0 l = Ok c.

Lemma reached_step c a : reached c -> exists c', step contrib c a = Ok c'.
Proof.
move=> [l H]; have [c1 [Hc1 _ _]] := threads_ok Hmap fs Hwf kinds (l ++ [:: a]).
by move: Hc1; rewrite (run_catE _ H) /run /=; case: (step _ _ _) => //= c' _; exists c'.
Qed.

Lemma reached_run c l c' : reached c -> run contrib c l = Ok c' -> reached c'.
Proof. by move=> [l0 H] H'; exists (l0 ++ l); rewrite (run_catE _ H). Qed.

Lemma reached_size c : reached c -> size (p_threads (s_proc c)) = size kinds.
Proof.
move=> [l H]; have [Hl|//] := good_start contrib jobs fs (size kinds) kinds.
by have [[_ Hs _] _] := run_live Hmap Hwf Hn Hl H.
Qed.

(** What is known of a thread that has begun. *)
Definition begun_ok (f : fstate) (a : actor) (begun : bool) : Prop :=
  begun -> if a is Some t then outside f a = false else entered (f_main f).

Lemma begun_step f a begun x f1 : begun_ok f a begun -> (if a is Some t then t < size (p_threads (f_proc f)) else true) ->
  fstep contrib f x = Ok f1 -> let begun' := begun || [&& steps_of a x, outside f a & ~~ blocked f a] in
  steps_of a x /\ adone f x f1 \/ begun_ok f1 a begun' /\ (begun' -> ~~ outside f1 a).
Proof.
have ent n : entered n -> (if n is NNone then true else false) = false by case: n.
case: a => [t|] Hb Ha Hf begun'; rewrite {}/begun'.
- have Hoth : ~~ steps_of (Some t) x -> mic f1 t = mic f t.
    case: x Hf => [save|t'|t'] //=; first by move=> /main_others[E _ _] _; rewrite /mic E.
      by move=> /thread_others[_ E]; rewrite eq_sym => /E.
    by case=> <-.
  case Hx: (steps_of (Some t) x); last first.
    right; rewrite andFb orbF /begun_ok /outside -/(mic f1 t) Hoth ?Hx //; split=> // Hbg.
    by have := Hb Hbg; rewrite /outside -/(mic f t) => ->.
  case: x Hf Hx {Hoth} => // t' Hf /eqP Et; rewrite {t'}Et in Hf *.
  rewrite /adone Ha /tdone; case Ho: (outside f1 (Some t)); last first.
    by right; rewrite /begun_ok Ho.
  rewrite /begun_ok -[micn (mic f1 t)]/(outside f1 (Some t)) Ho -[micn (mic f t)]/(outside f (Some t)).
  case: begun Hb => [/(_ isT)->|_]; first by left.
  case: (outside f (Some t)); last by left.
  by case: (blocked _ _); [right | left].
- have Hoth : ~~ steps_of None x -> f_main f1 = f_main f.
    case: x Hf => [save|t'|t'] //=; first by move=> /thread_others[-> _].
    by case=> <-.
  case Hx: (steps_of None x); last first.
    right; rewrite andFb orbF /begun_ok /= Hoth ?Hx //; split=> // Hbg.
    by rewrite ent //; exact: Hb.
  case: x Hf Hx {Hoth} => // save Hf _; have [_ M1 M2] := main_others Hf.
  case: begun Hb => [/(_ isT) Hb|_] /=.
    by have /orP[He|->] := M2 Hb; [right; split=> // _; rewrite ent | left].
  case E: (f_main f) M1 => [||bs|bs|i y o|y o||t|t|t|t||||r|r|r st|r st||] //=; try by (right).
  move=> /(_ erefl); case Hbl: (blocked f None); first by right.
  rewrite /mdone E Hbl /begun_ok /= andbT; by case: (f_main f1) => //=; (by left) || (by right).
Qed.

Lemma run_bits acts f c f' : R f c -> reached c -> frun contrib f acts = Ok f' ->
  exists m c', [/\ size m = size acts, run contrib c (mask m acts) = Ok c', R f' c',
    forall t, has (is_wake t) acts -> has (is_wake t) (mask m acts) &
    forall a begun, begun_ok f a begun -> (if a is Some t then t < size (p_threads (f_proc f)) else true) ->
      served_from contrib begun f acts a -> has (steps_of a) (mask m acts)].
Proof.
elim: acts f c => [|x acts IH] f c HR Hc /=.
  by case=> <-; exists [::], c.
move=> H; have [f1 H1 H2] := bind_Ok_inv H; have [c1 Hc1] := reached_step x Hc.
have [m [c2 [Hm HR2 Hd]]] := step_bit HR Hc1 H1.
have Hc2 := reached_run Hc Hm.
have [ms [c' [I1 I2 I3 I4 I5]]] := IH _ _ HR2 Hc2 H2.
exists (m :: ms), c'; split=> //=; first by rewrite I1.
- by case: m Hm {Hd} => Hm; [exact: etrans (run_catE _ Hm) I2 | case: Hm => ->].
- move=> t /orP[Hw|Hw]; last by case: m {Hm Hd} => /=; rewrite ?I4 ?orbT.
  by case: x {H H1 Hc1 Hm} Hw Hd => //= t' Ht' Hd; rewrite Hd //= Ht'.
move=> a begun Hb Ha; rewrite H1.
have Hsz : size (p_threads (f_proc f1)) = size (p_threads (f_proc f)).
  by rewrite (R_size HR2) (R_size HR) !reached_size.
have Hor : has (steps_of a) (mask ms acts) -> has (steps_of a) (mask (m :: ms) (x :: acts)).
  by case: (m) => //= ->; rewrite orbT.
have Hnow : steps_of a x -> adone f x f1 -> has (steps_of a) (mask (m :: ms) (x :: acts)).
  by move=> Hx /Hd->; rewrite /= Hx.
set begun' := begun || _; have Ha1 : is_true (if a is Some t then t < size (p_threads (f_proc f1)) else true) by case: (a) Ha => [t|//]; rewrite Hsz.
have Hcase : steps_of a x /\ adone f x f1 \/ begun_ok f1 a begun' /\ (begun' -> ~~ outside f1 a).
  exact: (begun_step Hb).
case: Hcase => [[K1 K2] _|[K1 K2]]; first exact: Hnow.
case/orP=> [/andP[/K2/negP]|K3] //; apply: Hor; exact: (I5 a begun' K1 Ha1 K3).
Qed.

Notation f0 := (fstart kinds fs (main_program jobs)).
Notation n := (size kinds).

Lemma begun_false f a : begun_ok f a false. Proof. by []. Qed.

Lemma served_round r f c f' : R f c -> reached c -> served_from contrib false f r None ->
  all (fun t => served_from contrib false f r (Some t)) (iota 0 n) -> frun contrib f r = Ok f' ->
  exists l c', [/\ run contrib c l = Ok c', R f' c', woken n r -> full_round n l & quiet r -> plain_round n l].
Proof.
move=> HR Hc Hmain /allP Hthr Hrun; have [m [c' [M1 M2 M3 M4 M5]]] := run_bits HR Hc Hrun.
have Hm : has is_main (mask m r).
  by have := M5 None false (@begun_false _ _) isT Hmain; apply: sub_has => x; case: x.
have Ht t : t \in iota 0 n -> has (is_step t) (mask m r).
  move=> Hin; have := M5 (Some t) false (@begun_false _ _) _ (Hthr _ Hin); apply.
  by move: Hin; rewrite mem_iota (R_size HR) reached_size.
exists (mask m r), c'; split=> //.
- rewrite /woken => /allP Hw; apply/andP; split=> //; apply/allP => t Hin; by rewrite Ht // M4 // Hw.
- rewrite /quiet => Hq; apply/and3P; split=> //; first by apply/allP => t Hin; exact: Ht.
  exact: all_mask' Hq.
Qed.

Lemma served_rounds rs f c : R f c -> reached c -> all_served contrib n f rs ->
  exists f' ls c', [/\ frun contrib f (flatten rs) = Ok f', R f' c', size ls = size rs, run contrib c (flatten ls) = Ok c' &
    (all (woken n) rs -> all (full_round n) ls) /\ (all quiet rs -> all (plain_round n) ls)].
Proof.
elim: rs f c => [|r rs IH] f c HR Hc /=; first by move=> _; exists f, [::], c.
case/and3P=> H1 H2; case H3: (frun contrib f r) => [f1| | |] // H4.
have [l [c1 [K1 K2 K3 K4]]] := served_round HR Hc H1 H2 H3.
have [f' [ls [c' [I1 I2 I3 I4 [I5 I6]]]]] := IH _ _ K2 (reached_run Hc K1) H4.
exists f', (l :: ls), c'; split=> //=.
- by rewrite /frun foldM_cat -/(frun _ _ _) H3.
- by rewrite I3.
- by rewrite (run_catE _ K1).
- by split=> /andP[A1 A2]; rewrite ?K3 ?K4 ?I5 ?I6.
Qed.

Lemma R_reached acts f : frun contrib f0 acts = Ok f -> exists2 c, R f c & reached c.
Proof.
move=> Hrun; have [f' [m [c [H1 _ H3 HR]]]] := run_sim Hmap fs kinds Hwf acts.
by move: H1; rewrite Hrun => -[Ef]; rewrite -Ef in HR; exists c => //; exists (mask m acts).
Qed.

Lemma fine_ends acts f : frun contrib f0 acts = Ok f ->
  exists k, forall rs, k <= size rs -> all (woken n) rs -> all_served contrib n f rs ->
    exists2 f', frun contrib f (flatten rs) = Ok f' & s_pc (f_st f') = PDone.
Proof.
move=> Hrun; have [c HR [l Hc]] := R_reached Hrun.
have [k Hk] := program_ends Hmap Hwf Hn (erefl n) Hc.
exists k => rs Hsz Hw Hs; have [|f' [ls [c' [I1 I2 I3 I4 [I5 _]]]]] := served_rounds HR _ Hs; first by exists l.
have [|s'] := Hk ls _ (I5 Hw); first by rewrite I3.
by rewrite I4 => -[<-] Hpc; exists f' => //; rewrite (R_st I2).
Qed.

Lemma R_stranded f c t : R f c -> stranded c t -> stranded (f_st f) t.
Proof.
move=> HR [H1 H2 H3 H4]; have [Epc _ _ _ _] := ctl HR; have [_ Eph] := R_core HR t.
have Ef : s_proc (f_st f) = f_proc f by [].
have Hm : mic f t = MNone by apply: tok_wait; rewrite -H2; exact: (R_tok HR t).
have HT := R_T HR t; split; rewrite ?Ef ?(R_size HR) //; last by rewrite Epc.
  by rewrite -/(thr_at _ _) Eph.
rewrite -/(thr_at _ _); move: HT H3; rewrite /relT -/(thr_at (s_proc c) t) /treg.
case E: (nth None (f_data f) t) => [[t'|]|]; last by case=> -> ->.
  have : inT f t (Some t') by rewrite -(R_lT HR) E.
  by case/andP=> /eqP-> /=; rewrite Hm.
by case: (f_main f) => [||bs|bs|i y o|y o||u|u|u|u||||r|r|r st|r st||] /=; case=> -> -> //; [case=> [_|]; [left; case: (t_queue _) | right] | right].
Qed.

Lemma fine_ends_or_lost acts f : frun contrib f0 acts = Ok f ->
  exists k, forall rs, k <= size rs -> all quiet rs -> all_served contrib n f rs ->
    exists2 f', frun contrib f (flatten rs) = Ok f' & s_pc (f_st f') = PDone \/ exists t, forever_lost contrib f' t.
Proof.
move=> Hrun; have [c HR [l Hc]] := R_reached Hrun.
have [k Hk] := ends_or_lost Hmap Hwf Hn (erefl n) Hc.
exists k => rs Hsz Hw Hs; have [|f' [ls [c' [I1 I2 I3 I4 [_ I5]]]]] := served_rounds HR _ Hs; first by exists l.
have [|s'] := Hk ls _ (I5 Hw); first by rewrite I3.
rewrite I4 => -[<-] Hpc; exists f' => //; case: Hpc => [Hpc|[t Ht]]; first by left; rewrite (R_st I2).
have Hc' : reached c' by apply: reached_run I4; exists l.
right; exists t => more Hnw.
have [f2 H2] : exists f2, frun contrib f' more = Ok f2.
  have [f2] := never_fails Hmap fs kinds Hwf (acts ++ flatten rs ++ more); rewrite /frun foldM_cat -/(frun _ _ _) Hrun /=.
  by rewrite foldM_cat -/(frun _ _ _) I1 /= => H2; exists f2.
have [m [c2 [M1 M2 M3 _ _]]] := run_bits I2 Hc' H2; have [l' Hl'] := Hc'.
have Hmask : all (not_woken t) (mask m more) by exact: all_mask' Hnw.
have [K1 K2] := lost_for_ever Hmap Hwf Hn (erefl n) Hl' Ht Hmask M2.
by exists f2; split=> //; [exact: R_stranded K1 | rewrite (R_st M3)].
Qed.
End Start.
End Ends.
