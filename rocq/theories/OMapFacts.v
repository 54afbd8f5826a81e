(** Facts about ordered maps and sets. *)
Set Warnings "-notation-overridden,-ambiguous-paths".
From mathcomp Require Import all_ssreflect ssralg ssrnum ssrint order zify.
From Verif Require Import OMap.

Set Implicit Arguments.
Unset Strict Implicit.
Unset Printing Implicit Defensive.

(** Strict total orders. *)
Definition strict_total (K : eqType) (lt : K -> K -> bool) : Prop :=
  [/\ irreflexive lt, transitive lt & forall x y, x != y -> lt x y || lt y x].

Section Order.
Variables (K : eqType) (lt : K -> K -> bool).
Hypothesis Hlt : strict_total lt.

Lemma st_irr : irreflexive lt. Proof. by case: Hlt. Qed.
Lemma st_tr : transitive lt. Proof. by case: Hlt. Qed.

Lemma st_asym x y : lt x y -> lt y x = false.
Proof. by move=> Hxy; apply/negP => Hyx; have := st_tr Hxy Hyx; rewrite st_irr. Qed.

Lemma st_neq x y : lt x y -> (x == y) = false.
Proof. by move=> Hxy; apply/eqP => E; rewrite E st_irr in Hxy. Qed.

Lemma st_eq x y : lt x y = false -> lt y x = false -> x = y.
Proof.
move=> H1 H2; case: (x =P y) => // /eqP Hne; case: Hlt => _ _ /(_ _ _ Hne).
by rewrite H1 H2.
Qed.

Variant st_spec x y : bool -> bool -> bool -> Prop :=
  | StLt of lt x y : st_spec x y true false false
  | StEq of x = y : st_spec x y false false true
  | StGt of lt y x : st_spec x y false true false.

Lemma stP x y : st_spec x y (lt x y) (lt y x) (x == y).
Proof.
case E: (lt x y); first by rewrite (st_asym E) (st_neq E); constructor.
case E': (lt y x); first by rewrite eq_sym (st_neq E'); constructor.
by rewrite (st_eq E E') eqxx; constructor.
Qed.

Section Maps.
Variable V : Type.
Implicit Types (m : seq (K * V)).

Definition om_wf m : bool := sorted lt [seq kv.1 | kv <- m].

Lemma om_wf_cons k v m : om_wf ((k, v) :: m) -> om_wf m /\ all (lt k) [seq kv.1 | kv <- m].
Proof. by rewrite /om_wf /= (path_sortedE st_tr) => /andP[]. Qed.

Lemma om_find_lt m k : all (lt k) [seq kv.1 | kv <- m] -> om_find lt m k = None.
Proof. by case: m => [|[k' v'] m] //= /andP[H _]; rewrite (st_asym H) H. Qed.

Lemma om_find_set m k v k' : om_wf m ->
  om_find lt (om_set lt m k v) k' = if k' == k then Some v else om_find lt m k'.
Proof.
elim: m => [|[k1 v1] m IH] Hw /=.
  by rewrite eq_sym; case: (stP k k').
have [Hw1 Ha] := om_wf_cons Hw.
case: (stP k1 k) => [H1|H1|H1]; try subst k1; simpl.
- rewrite IH //; case: (stP k1 k') => // [<-|H]; first by rewrite (st_neq H1).
  by rewrite (st_neq (st_tr H H1)).
- by rewrite eq_sym; case: (stP k k').
- rewrite eq_sym; case: (stP k k') => // H.
  by rewrite (st_asym (st_tr H H1)) (st_tr H H1).
Qed.

Lemma om_keys_set m k v k' : om_wf m ->
  (k' \in [seq kv.1 | kv <- om_set lt m k v]) = (k' == k) || (k' \in [seq kv.1 | kv <- m]).
Proof.
elim: m => [|[k1 v1] m IH] Hw /=; first by rewrite !inE ?orbF.
have [Hw1 _] := om_wf_cons Hw.
case: (stP k1 k) => [H1|H1|H1]; try subst k1; simpl; rewrite !inE ?IH //.
- by rewrite orbCA.
- by rewrite orbA orbb.
Qed.

Lemma om_wf_set m k v : om_wf m -> om_wf (om_set lt m k v).
Proof.
elim: m => [|[k1 v1] m IH] Hw //=; have [Hw1 Ha] := om_wf_cons Hw.
case: (stP k1 k) => [H1|H1|H1]; try subst k1; rewrite /om_wf /=.
- rewrite (path_sortedE st_tr) -/(om_wf _) IH // andbT; apply/allP => k'; rewrite om_keys_set //.
  by case/predU1P=> [->//|]; apply: (allP Ha).
- by rewrite (path_sortedE st_tr) Ha.
- by rewrite H1 (path_sortedE st_tr) Ha.
Qed.

Lemma om_find_keys m k : om_wf m -> isSome (om_find lt m k) = (k \in [seq kv.1 | kv <- m]).
Proof.
elim: m => [|[k1 v1] m IH] Hw //=; have [Hw1 Ha] := om_wf_cons Hw.
rewrite inE; case: (stP k1 k) => [H1|->|H1] /=.
- by rewrite IH // eq_sym (st_neq H1).
- by rewrite eqxx.
- rewrite (st_neq H1) /=; apply/esym/negbTE/negP => /(allP Ha) H2.
  by have := st_asym H1; rewrite H2.
Qed.

Lemma om_ext m m' : om_wf m -> om_wf m' -> (forall k, om_find lt m k = om_find lt m' k) -> m = m'.
Proof.
elim: m m' => [|[k v] m IH] [|[k' v'] m'] Hm Hm' E //.
- by have := E k'; rewrite /= st_irr.
- by have := E k; rewrite /= st_irr.
have [Hm1 Ha1] := om_wf_cons Hm; have [Hm2 Ha2] := om_wf_cons Hm'.
have Ek : k = k'.
  case: (stP k k') => // H.
    by have := E k; rewrite /= st_irr H (st_asym H).
  by have := E k'; rewrite /= st_irr H (st_asym H).
subst k'; have := E k; rewrite /= st_irr => -[Ev]; subst v'; congr cons.
apply: IH => // j; have := E j; rewrite /=; case: (stP k j) => [//|<- _|H _].
  by rewrite !om_find_lt.
have lift (l : seq K) : all (lt k) l -> all (lt j) l.
  by move=> /allP Hl; apply/allP => x /Hl; apply: st_tr H.
by rewrite !om_find_lt //; apply: lift.
Qed.

End Maps.

(** Sets. *)
Implicit Types s : seq K.
Definition os_wf s : bool := sorted lt s.

Lemma os_wf_cons k s : os_wf (k :: s) -> os_wf s /\ all (lt k) s.
Proof. by rewrite /os_wf /= (path_sortedE st_tr) => /andP[]. Qed.

Lemma os_wf_uniq s : os_wf s -> uniq s.
Proof. exact: (sorted_uniq st_tr st_irr). Qed.

Lemma os_memE s k : os_wf s -> os_mem lt s k = (k \in s).
Proof.
elim: s => [|k1 s IH] Hw //=; have [Hw1 Ha] := os_wf_cons Hw.
rewrite inE; case: (stP k1 k) => [H1|->|H1] /=.
- by rewrite IH // eq_sym (st_neq H1).
- by rewrite eqxx.
- rewrite (st_neq H1) /=; apply/esym/negbTE/negP => /(allP Ha) H2.
  by have := st_asym H1; rewrite H2.
Qed.

Lemma mem_os_insert s k k' : os_wf s -> (k' \in os_insert lt s k) = (k' == k) || (k' \in s).
Proof.
elim: s => [|k1 s IH] Hw /=; first by rewrite !inE ?orbF.
have [Hw1 _] := os_wf_cons Hw.
case: (stP k1 k) => [H1|H1|H1]; try subst k1; simpl; rewrite !inE ?IH //.
- by rewrite orbCA.
- by rewrite orbA orbb.
Qed.

Lemma os_wf_insert s k : os_wf s -> os_wf (os_insert lt s k).
Proof.
elim: s => [|k1 s IH] Hw //=; have [Hw1 Ha] := os_wf_cons Hw.
case: (stP k1 k) => [H1|H1|H1]; try subst k1; rewrite /os_wf /=.
- rewrite (path_sortedE st_tr) -/(os_wf _) IH // andbT; apply/allP => k'; rewrite mem_os_insert //.
  by case/predU1P=> [->//|]; apply: (allP Ha).
- by rewrite (path_sortedE st_tr) Ha.
- by rewrite H1 (path_sortedE st_tr) Ha.
Qed.

Lemma mem_os_erase s k k' : os_wf s -> (k' \in os_erase lt s k) = (k' != k) && (k' \in s).
Proof.
elim: s => [|k1 s IH] Hw /=; first by rewrite andbF.
have [Hw1 Ha] := os_wf_cons Hw.
case: (stP k1 k) => [H1|H1|H1]; try subst k1; simpl; rewrite !inE ?IH //.
- by case: eqP => [->|_] /=; rewrite ?(st_neq H1).
- case: eqP => [->|_] //=; apply/negP => /(allP Ha); by rewrite st_irr.
- case: (k' =P k) => [->|_] //=; rewrite (st_neq H1) /=; apply/negP => /(allP Ha) H2.
  by have := st_asym H1; rewrite H2.
Qed.

Lemma os_wf_erase s k : os_wf s -> os_wf (os_erase lt s k).
Proof.
elim: s => [|k1 s IH] Hw //=; have [Hw1 Ha] := os_wf_cons Hw.
case: (stP k1 k) => [H1|_|H1] //.
rewrite /os_wf /= (path_sortedE st_tr) -/(os_wf _) IH // andbT; apply/allP => k'; rewrite mem_os_erase //.
by case/andP=> _; apply: (allP Ha).
Qed.

Lemma os_ext s s' : os_wf s -> os_wf s' -> s =i s' -> s = s'.
Proof. exact: (irr_sorted_eq st_tr st_irr). Qed.
End Order.

(** The comparisons are strict total orders. *)
Lemma ltn_total : strict_total ltn.
Proof. by split; [exact: ltnn|exact: ltn_trans|move=> x y; rewrite neq_ltn]. Qed.

Lemma int_total : strict_total int_lt.
Proof.
split; [exact: Order.POrderTheory.ltxx|exact: Order.POrderTheory.lt_trans|].
by move=> x y; rewrite /int_lt Order.TotalTheory.neq_lt.
Qed.

Lemma tup_total : strict_total (tup_lt : nat * nat -> nat * nat -> bool).
Proof.
split.
- by move=> x; rewrite /tup_lt !ltnn.
- by move=> [y1 y2] [x1 x2] [z1 z2]; rewrite /tup_lt /=; do ![case: ltnP => ?]; try lia.
- move=> [x1 x2] [y1 y2]; rewrite /tup_lt xpair_eqE /= => H; do ![case: ltnP => ?]; lia.
Qed.

Lemma vec_total (T : eqType) (lt : T -> T -> bool) : strict_total lt -> strict_total (vec_lt lt).
Proof.
move=> Hlt; have stP' := stP Hlt; split.
- by elim=> [|x v IH] //=; rewrite (st_irr Hlt).
- elim=> [|y v IH] [|x u] [|z w] //=.
  case: (stP' x y) => [Hxy|<-|Hxy] // H1.
  + case: (stP' y z) => [Hyz|<-|Hyz] // H2.
      by rewrite (st_tr Hlt Hxy Hyz).
    by rewrite Hxy.
  + by case: (stP' x z) => // _; exact: IH.
- elim=> [|x v IH] [|y w] //=; rewrite eqseq_cons negb_and.
  by case: (stP' x y) => //= _ /IH.
Qed.

Lemma block_total : strict_total (block_lt : block -> block -> bool).
Proof. exact: vec_total tup_total. Qed.
