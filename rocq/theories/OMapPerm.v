(** Ordered maps and sets up to permutation. *)
Set Warnings "-notation-overridden,-ambiguous-paths".
From mathcomp Require Import all_ssreflect zify.
From Verif Require Import OMap OMapFacts.

Set Implicit Arguments.
Unset Strict Implicit.
Unset Printing Implicit Defensive.

Section Perm.
Variables (K : eqType) (lt : K -> K -> bool).
Hypothesis Hlt : strict_total lt.

Section Maps.
Variable V : eqType.
Implicit Types (m : seq (K * V)).

Lemma om_set_perm m k v : om_wf lt m -> k \notin [seq kv.1 | kv <- m] ->
  perm_eq (om_set lt m k v) ((k, v) :: m).
Proof.
elim: m => [|[k1 v1] m IH] Hw //=; rewrite inE negb_or => /andP[Hne Hk].
have [Hw1 _] := om_wf_cons Hlt Hw.
case: (stP Hlt k1 k) => [H|H|H] //; last by rewrite H eqxx in Hne.
apply: (@perm_trans _ [:: (k1, v1), (k, v) & m]); first by rewrite perm_cons IH.
by rewrite -[_ :: _ :: m]/([:: (k1, v1)] ++ [:: (k, v)] ++ m) perm_catCA.
Qed.

Lemma om_erase_perm m k v : om_wf lt m -> om_find lt m k = Some v ->
  perm_eq m ((k, v) :: om_erase lt m k).
Proof.
elim: m => [|[k1 v1] m IH] Hw //=; have [Hw1 _] := om_wf_cons Hlt Hw.
case: (stP Hlt k1 k) => [H Hf|-> [->]|H] //.
apply: (@perm_trans _ [:: (k1, v1), (k, v) & om_erase lt m k]); first by rewrite perm_cons IH.
by rewrite -[_ :: _ :: _]/([:: (k1, v1)] ++ [:: (k, v)] ++ _) perm_catCA.
Qed.

Lemma om_erase_subseq m k : subseq (om_erase lt m k) m.
Proof.
elim: m => [|[k1 v1] m IH] //; rewrite [om_erase _ _ _]/=.
case: ifP => _; first by rewrite /= eqxx.
by case: ifP => _; [exact: subseq_refl|exact: subseq_cons].
Qed.

Lemma om_wf_erase m k : om_wf lt m -> om_wf lt (om_erase lt m k).
Proof.
by move=> H; apply: (subseq_sorted (st_tr Hlt)) H; apply: map_subseq; exact: om_erase_subseq.
Qed.

Lemma om_find_in m k v : om_wf lt m -> ((k, v) \in m) = (om_find lt m k == Some v).
Proof.
elim: m => [|[k1 v1] m IH] Hw //=; have [Hw1 Ha] := om_wf_cons Hlt Hw.
rewrite inE xpair_eqE; case: (stP Hlt k1 k) => [H|H|H].
- by rewrite eq_sym (st_neq Hlt H) IH.
- subst k1; rewrite eqxx /= eq_sym; case: (v1 =P v) => [->|Hv]; first by rewrite eqxx.
  rewrite /=; have -> : (Some v1 == Some v) = false by apply/eqP => -[].
  apply/negP => Hin; move/allP: Ha => /(_ k); rewrite (st_irr Hlt).
  by move/(_ (map_f fst Hin)).
- rewrite eq_sym eq_sym (st_neq Hlt H) /=; apply/negP => Hin.
  move/allP: Ha => /(_ k (map_f fst Hin)) H'; by rewrite (st_asym Hlt H) in H'.
Qed.

Lemma om_keys_uniq m : om_wf lt m -> uniq [seq kv.1 | kv <- m].
Proof. exact: (sorted_uniq (st_tr Hlt) (st_irr Hlt)). Qed.
End Maps.

Implicit Types s : seq K.

Lemma os_insert_perm s k : os_wf lt s -> k \notin s -> perm_eq (os_insert lt s k) (k :: s).
Proof.
move=> Hs Hk; apply: uniq_perm; first exact/(os_wf_uniq Hlt)/os_wf_insert.
  by rewrite /= Hk (os_wf_uniq Hlt).
by move=> x; rewrite (mem_os_insert Hlt) // inE.
Qed.

Lemma os_erase_perm s k : os_wf lt s -> k \in s -> perm_eq s (k :: os_erase lt s k).
Proof.
move=> Hs Hk; apply: uniq_perm; first exact: (os_wf_uniq Hlt).
  by rewrite /= (mem_os_erase Hlt) // eqxx /=; apply: (os_wf_uniq Hlt); apply: os_wf_erase.
move=> x; rewrite inE (mem_os_erase Hlt) //; by case: eqP => // ->.
Qed.
End Perm.
