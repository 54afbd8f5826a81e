(** Crashes while a record file is written, for the blocks of a list of configurations. *)
Set Warnings "-notation-overridden,-ambiguous-paths".
From mathcomp Require Import all_ssreflect zify.
From Verif Require Import Res ResFacts OMap Store StoreSpec Text TextSpec Pool Standalone StandaloneSpec StandaloneTheorems
  Config Worker WorkerSpec WorkerProofs EndToEnd FlintExists TornSpec TornProofs.

Set Implicit Arguments.
Unset Strict Implicit.
Unset Printing Implicit Defensive.

Section Configs.
Variables M W : nat.
Hypothesis HMW : 2 * M <= W.

Lemma config_boxes c : admissible M c -> exists boxes N,
  (forall fuel, N <= fuel -> config_blocks W fuel c = Ok boxes) /\
  [/\ uniq boxes, [::] \notin boxes & all (small_bounds M) boxes].
Proof.
move=> Hc; have [/andP[Hp _] /and4P[Hr _ _ _] _ _] := Hc.
have [flint Hf] := flint_exists Hp Hr.
have [boxes [_ [N [H1 H2 _ _ _]]]] := config_ok HMW (leqnn W) Hc Hf (flint_polys_ok Hf).
by exists boxes, N.
Qed.

Lemma config_apart fuel c bs : admissible M c -> g_marked c || ~~ (g_prime c %| 2 * g_genus c + 2) ->
  config_blocks W fuel c = Ok bs -> separate bs.
Proof.
move=> [/andP[Hp Ho] /and4P[Hr Hg Hn Hpsz] HM _].
have Hq : g_prime c ^ 1 <= g_prime c ^ g_exponent c by rewrite leq_pexp2l // prime_gt0.
have Hq' : (g_prime c ^ g_exponent c) ^ 1 <= (g_prime c ^ g_exponent c) ^ g_count c.
  by rewrite leq_pexp2l // expn_gt0 prime_gt0.
have Hp1 := prime_gt1 Hp; rewrite !expn1 in Hq Hq'.
apply: config_separate => //.
- by apply/eqP => E; rewrite E in Ho.
- exact: leq_trans Hp1 Hq.
- apply: leq_trans HMW; rewrite leq_mul2l /=; apply: leq_trans Hq' _; apply: ltnW.
  by apply: leq_ltn_trans HM; rewrite leq_addr.
Qed.

Variable dir : seq char -> nat.
Variable cs : seq config.
Hypothesis Hcs : forall i, i < size cs -> let c := nth c0 cs i in
  admissible M c /\ g_marked c || ~~ (g_prime c %| 2 * g_genus c + 2).
Hypothesis Hdir : uniq [seq dir (g_path c) | c <- cs].

Lemma configs_boxes : exists (bs : nat -> seq block) N,
  (forall i, i < size cs -> [/\ uniq (bs i), [::] \notin bs i, all (small_bounds M) (bs i) & separate (bs i)]) /\
  forall fuel, N <= fuel -> forall i, i < size cs -> config_blocks W fuel (nth c0 cs i) = Ok (bs i).
Proof.
elim: cs Hcs => [|c l IH] H; first by exists (fun _ => [::]), 0.
have [|bs [N [H1 H2]]] := IH; first by move=> i Hi; exact: (H i.+1).
have [K1 K2] := H 0 isT; have [b [N' [L1 [L2 L3 L4]]]] := config_boxes K1.
exists (fun i => if i is i'.+1 then bs i' else b), (maxn N N').
split=> [[|i] Hi|fuel]; [split=> //|exact: H1|].
  exact: config_apart K1 K2 (L1 _ (leqnn _)).
by rewrite geq_max => /andP[HN HN'] [|i] Hi; [exact: L1|exact: H2].
Qed.

Lemma program_boxes : exists jobs N,
  (forall fuel, N <= fuel -> program_jobs W fuel dir cs = Ok jobs) /\
  [/\ jobs_wf jobs, size jobs = size cs, forall j, j \in jobs -> all (small_bounds M) j.2 &
      forall j, j \in jobs -> separate j.2].
Proof.
have [bs [N [H1 H2]]] := configs_boxes.
exists [seq (dir (g_path (nth c0 cs i)), i, bs i) | i <- iota 0 (size cs)], N; split.
  move=> fuel Hf; rewrite /program_jobs (zip_iota HMW (leqnn W)) mapM_map; apply: mapM_Ok => i; rewrite mem_iota => /andP[_ Hi].
  by rewrite [_ i]/= subn0; rewrite H2.
split; last 3 first.
- by rewrite size_map size_iota.
- by move=> j /mapP[i]; rewrite mem_iota => /andP[_ Hi] ->; case: (H1 i Hi).
- by move=> j /mapP[i]; rewrite mem_iota => /andP[_ Hi] ->; case: (H1 i Hi).
apply/and3P; split.
- rewrite -map_comp; rewrite (_ : [seq _ | i <- _] = [seq dir (g_path c) | c <- cs]) //.
  apply: (@eq_from_nth _ 0); rewrite !size_map size_iota // => i Hi.
  by rewrite (nth_map 0) ?size_iota // nth_iota // (nth_map c0).
- by rewrite -map_comp map_id_in ?iota_uniq.
apply/allP => j /mapP[i]; rewrite mem_iota => /andP[_ Hi] -> /=.
by case: (H1 i Hi) => -> ->.
Qed.

Lemma program_torn : exists jobs N, (forall fuel, N <= fuel -> program_jobs W fuel dir cs = Ok jobs) /\
  forall contrib : nat -> block -> store, (forall c b, is_map (contrib c b)) ->
  forall n fs, torn_history contrib M W jobs n fs ->
  forall kinds acts s, run contrib (start kinds fs (main_program jobs)) acts = Ok s -> s_pc s = PDone ->
  forall j, j \in jobs ->
    exists L, [/\ add_up contrib (files s) j.1.1 j.1.2 L, L =i j.2 & forall b, count_mem b L <= n.+1].
Proof.
have [jobs [N [H1 [H2 _ H3 H4]]]] := program_boxes; exists jobs, N; split=> // contrib Hmap n fs Hh kinds acts s Hrun Hpc j Hj.
have HMW' : M <= W by move: HMW; clear; lia.
exact: (torn_restart_ok Hmap HMW' H2 H3 H4 Hh Hrun Hpc Hj).
Qed.
End Configs.
