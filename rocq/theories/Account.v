(** Accounting for the blocks given to one process: each is held by a thread or done, and each that
    is done is in the shared store or was taken out of it. *)
Set Warnings "-notation-overridden,-ambiguous-paths".
From mathcomp Require Import all_ssreflect zify.
From Verif Require Import Res ResFacts OMap OMapFacts OMapPerm Store StoreSpec StoreProofs FilesProofs
  Pool PoolProofs Standalone StandaloneSpec.

Set Implicit Arguments.
Unset Strict Implicit.
Unset Printing Implicit Defensive.

Section Account.
Variable contrib : nat -> block -> store.
Hypothesis Hmap : forall c b, is_map (contrib c b).
Local Notation sums := (sums contrib).

Lemma sums_perm c r r' st : perm_eq r r' -> sums c r st -> sums c r' st.
Proof. by move=> H [H1 H2]; split=> // k; rewrite H2; apply: sum_opt_perm; apply: perm_map. Qed.

Lemma sums_nil c : sums c [::] [::]. Proof. by split. Qed.

Record acct (p : proc) (c : nat) (h rep out : seq block) : Prop := Acct
  { a_keys : perm_eq h (keys p ++ p_finished p ++ rep);
    a_pend : perm_eq h (pend p ++ done_at p c);
    a_out : perm_eq (done_at p c) (out ++ sh_record (p_shared p));
    a_set : is_set (sh_record (p_shared p));
    a_sum : sums c (sh_record (p_shared p)) (sh_store (p_shared p)) }.

Lemma acct_same p p' c h rep out : same p p' -> acct p c h rep out -> acct p' c h rep out.
Proof.
move=> [H1 H2 H3 [H4 H5 H6 H7]] [A1 A2 A3 A4 A5]; split; rewrite ?H4 //.
- by rewrite /keys H2 H3.
- by rewrite /done_at H5; apply: (perm_trans A2); rewrite perm_cat2r perm_sym.
- by rewrite /done_at H5.
Qed.

Lemma acct_out p c h rep out out' : perm_eq out out' -> acct p c h rep out -> acct p c h rep out'.
Proof.
by move=> H [A1 A2 A3 A4 A5]; split=> //; apply: (perm_trans A3); rewrite perm_cat2r.
Qed.

Lemma done_rcons p c b n : done_at (set_done p (rcons (p_done p) (b, Some n))) c =
  if n == c then rcons (done_at p c) b else done_at p c.
Proof.
rewrite /done_at /= filter_rcons /=; have -> : (Some n == Some c) = (n == c) by [].
by case: ifP => _ //; rewrite map_rcons.
Qed.

Lemma done_eq p p' c : p_done p' = p_done p -> done_at p' c = done_at p c.
Proof. by rewrite /done_at => ->. Qed.

Lemma acct_step p p' c h rep out : uniq h -> p_config p = Some c -> effect contrib p p' ->
  acct p c h rep out -> acct p' c h rep out.
Proof.
move=> Hu Hc [].
- move=> H1 H2 H3 H4 H5 [A1 A2 A3 A4 A5]; split; rewrite ?H4 //.
  + by rewrite /keys H2 H3.
  + by rewrite (done_eq _ H5); apply: (perm_trans A2); rewrite perm_cat2r perm_sym.
  + by rewrite (done_eq _ H5).
- move=> b n Hn H1 H2 H3 H4 H5 [A1 A2 A3 A4 A5].
  move: Hn; rewrite Hc => -[En]; rewrite -En in H4 H5 => {n En}.
  have Ed : done_at p' c = rcons (done_at p c) b.
    have := done_rcons p c b c; rewrite eqxx => <-; exact: done_eq.
  have Hn : b \notin sh_record (p_shared p).
    have := Hu; rewrite (perm_uniq A2) (perm_uniq (s2 := (b :: pend p') ++ out ++ sh_record (p_shared p))).
      by rewrite cat_cons /= mem_cat negb_or mem_cat negb_or => /andP[/and3P[_ _ ->]].
    by apply: perm_cat.
  have [K1 K2 K3 K4] := flush_ok b A5.1 A4 (Hmap c b).
  have Hp := os_insert_perm block_total A4 Hn.
  split; rewrite ?H4 /=.
  + by rewrite /keys H2 H3.
  + rewrite Ed; apply: (perm_trans A2); rewrite -cats1 catA perm_sym perm_catC catA perm_cat2r perm_sym.
    by rewrite cat1s.
  + rewrite Ed perm_rcons; apply: (@perm_trans _ ([:: b] ++ out ++ sh_record (p_shared p))).
      by rewrite perm_cons.
    by rewrite perm_catCA perm_cat2l perm_sym.
  + exact: K2.2.
  + apply: (@sums_perm _ (b :: sh_record (p_shared p))); first by rewrite perm_sym.
    split=> [|k]; first exact: K2.1.
    by rewrite (mergeE A5.1 (Hmap c b)).2 /= A5.2; exact: add_optC.
- move=> b H1 H2 H3 H4 H5 [A1 A2 A3 A4 A5]; split; rewrite ?H4 //.
  + apply: (perm_trans A1); rewrite H3 -cats1 -catA.
    apply: (@perm_trans _ ([:: b] ++ keys p' ++ p_finished p ++ rep)).
      by rewrite (catA [:: b]) perm_cat2r.
    by rewrite perm_catCA perm_cat2l perm_catCA.
  + by rewrite (done_eq _ H5); apply: (perm_trans A2); rewrite perm_cat2r perm_sym.
  + by rewrite (done_eq _ H5).
Qed.

Lemma acct_assign p p' c h rep out b : perm_eq (pend p') (b :: pend p) -> perm_eq (keys p') (b :: keys p) ->
  p_finished p' = p_finished p -> p_shared p' = p_shared p -> p_done p' = p_done p ->
  acct p c h rep out -> acct p' c (rcons h b) rep out.
Proof.
move=> H1 H2 H3 H4 H5 [A1 A2 A3 A4 A5]; split; rewrite ?H4 //.
- rewrite perm_rcons perm_sym H3; apply: (@perm_trans _ ((b :: keys p) ++ p_finished p ++ rep)).
    by rewrite perm_cat2r.
  by rewrite /= perm_cons perm_sym.
- rewrite perm_rcons perm_sym (done_eq _ H5); apply: (@perm_trans _ ((b :: pend p) ++ done_at p c)).
    by rewrite perm_cat2r.
  by rewrite /= perm_cons perm_sym.
- by rewrite (done_eq _ H5).
Qed.

Lemma acct_finished p c h rep out : acct p c h rep out ->
  acct (set_finished p [::]) c h (rep ++ p_finished p) out.
Proof.
move=> [A1 A2 A3 A4 A5]; split=> //=.
by apply: (perm_trans A1); rewrite perm_cat2l perm_catC.
Qed.

Lemma acct_global p c h rep out : acct p c h rep out ->
  acct (set_shared p shared_empty) c h rep (out ++ sh_record (p_shared p)).
Proof. by move=> [A1 A2 A3 A4 A5]; split=> //=; rewrite cats0. Qed.

Lemma acct_nil p c rep out : pend p = [::] -> keys p = [::] -> p_finished p = [::] -> rep = [::] ->
  done_at p c = [::] -> out = [::] -> p_shared p = shared_empty -> acct p c [::] rep out.
Proof. by move=> H1 H2 H3 H4 H5 H6 H7; split; rewrite ?H1 ?H2 ?H3 ?H4 ?H5 ?H6 ?H7. Qed.

(** With nothing held, everything handed out is reported and done. *)
Lemma acct_quiet p g gc c h rep out : proc_ok p g gc -> acct p c h rep out -> keys p = [::] -> p_finished p = [::] ->
  [/\ pend p = [::], perm_eq h rep & perm_eq h (done_at p c)].
Proof.
move=> Hok [A1 A2 A3 A4 A5] Hk Hf.
have Hp : pend p = [::].
  case E: (pend p) => [|b l] //; have : b \in keys p by apply: (pend_keys Hok); rewrite E inE eqxx.
  by rewrite Hk.
by split=> //; [move: A1; rewrite Hk Hf | move: A2; rewrite Hp].
Qed.
End Account.
