(** Lemmas about the outcome monad and the container operations of Res.v. *)
Set Warnings "-notation-overridden,-ambiguous-paths".
From mathcomp Require Import all_ssreflect zify.
From Verif Require Import Res.

Set Implicit Arguments.
Unset Strict Implicit.
Unset Printing Implicit Defensive.

Lemma bind_Ok_inv A B (m : res A) (k : A -> res B) b :
  bind m k = Ok b -> exists2 a, m = Ok a & k a = Ok b.
Proof. by case: m => //= a; exists a. Qed.

Lemma vgetE T (x0 : T) v i : i < size v -> vget v i = Ok (nth x0 v i).
Proof. by move=> Hi; rewrite /vget (drop_nth x0 Hi). Qed.

Lemma vget_oob T (v : seq T) i : size v <= i -> vget v i = Undef.
Proof. by move=> Hi; rewrite /vget drop_oversize. Qed.

Lemma vget_Ok T (x0 : T) v i x : vget v i = Ok x -> i < size v /\ nth x0 v i = x.
Proof.
case: (ltnP i (size v)) => Hi; last by rewrite vget_oob.
by rewrite (vgetE x0 Hi) => -[].
Qed.

Lemma vsetE T (x0 : T) v i x : i < size v -> vset v i x = Ok (set_nth x0 v i x).
Proof.
move=> Hi; rewrite /vset Hi; congr Ok.
apply: (@eq_from_nth _ x0); first by rewrite !size_set_nth.
move=> j; rewrite size_set_nth (maxn_idPr Hi) => Hj.
by rewrite nth_set_nth /= (set_nth_default x) ?size_set_nth ?(maxn_idPr Hi) // nth_set_nth /=;
   case: eqP => // _; apply: set_nth_default.
Qed.

Lemma foldM_cat S T (f : S -> T -> res S) s l1 l2 :
  foldM f s (l1 ++ l2) = bind (foldM f s l1) (fun s' => foldM f s' l2).
Proof. by elim: l1 s => [|x l1 IH] s //=; case: (f s x) => //=. Qed.

Lemma mapM_Ok S (T : eqType) (f : T -> res S) (g : T -> S) l :
  {in l, forall x, f x = Ok (g x)} -> mapM f l = Ok (map g l).
Proof.
elim: l => [|x l IH] //= H; rewrite H ?inE ?eqxx //= IH //.
by move=> y Hy; apply: H; rewrite inE Hy orbT.
Qed.

Lemma foldM_Ok S (T : eqType) (f : S -> T -> res S) (g : S -> T -> S) s l :
  (forall s x, x \in l -> f s x = Ok (g s x)) -> foldM f s l = Ok (foldl g s l).
Proof.
elim: l s => [|x l IH] s //= H; rewrite H ?inE ?eqxx //= IH //.
by move=> s' y Hy; apply: H; rewrite inE Hy orbT.
Qed.

(** ** Sorted association lists *)

Lemma sm_find_keys V (m : smap V) k : isSome (sm_find m k) = (k \in sm_keys m).
Proof. by elim: m => [|[k' v] m IH] //=; rewrite inE; case: eqP. Qed.

Lemma sm_find_None V (m : smap V) k : k \notin sm_keys m -> sm_find m k = None.
Proof. by rewrite -sm_find_keys; case: (sm_find m k). Qed.

Lemma sm_find_mem (V : eqType) (m : smap V) k v : sm_find m k = Some v -> (k, v) \in m.
Proof.
elim: m => [|[k' v'] m IH] //=; rewrite inE; case: eqP => [-> [->]|_ /IH ->].
  by rewrite eqxx.
by rewrite orbT.
Qed.

Lemma sm_find_In (V : eqType) (m : smap V) k v : uniq (sm_keys m) -> (k, v) \in m ->
  sm_find m k = Some v.
Proof.
elim: m => [|[k' v'] m IH] //= /andP[Hn Hu]; rewrite inE xpair_eqE.
case: (k =P k') => [->|_] /=; last by move/(IH Hu).
case/orP => [/eqP ->//|Hin]; case/negP: Hn.
by apply/mapP; exists (k', v).
Qed.

Lemma sm_wf_uniq V (m : smap V) : sm_wf m -> uniq (sm_keys m).
Proof. by rewrite /sm_wf ltn_sorted_uniq_leq => /andP[]. Qed.

Lemma sm_find_set V (m : smap V) k v k' :
  sm_wf m -> sm_find (sm_set m k v) k' = if k' == k then Some v else sm_find m k'.
Proof.
rewrite /sm_wf; elim: m => [|[k1 v1] m IH] //= Hs.
have {}IH := IH (path_sorted Hs).
case: ltnP => [Hlt|Hge] /=; first by case: eqP.
case: (k =P k1) => [->|Hne] /=; first by case: eqP.
rewrite IH; case: (k' =P k1) => [->|] //.
by case: eqP => // E; case: Hne.
Qed.

Lemma sm_keys_set V (m : smap V) k v : sm_wf m ->
  sm_keys (sm_set m k v) =i k :: sm_keys m.
Proof.
move=> Hw k'; rewrite inE -!sm_find_keys sm_find_set //.
by case: eqP.
Qed.

Lemma sm_wf_set V (m : smap V) k v : sm_wf m -> sm_wf (sm_set m k v).
Proof.
rewrite /sm_wf; elim: m => [|[k1 v1] m IH] // Hs.
rewrite /=; case: ltnP => [Hlt|Hge] /=; first by rewrite Hlt.
case: (k =P k1) => [->//|/eqP Hne] /=.
move: Hs; rewrite /= => Hs.
have IH' := IH (path_sorted Hs).
move: Hs; rewrite path_sortedE; last exact: ltn_trans.
move=> /andP[Ha Hs']; rewrite path_sortedE; last exact: ltn_trans.
 rewrite IH' andbT.
apply/allP => x Hx.
have Hw : sm_wf m by exact: Hs'.
move: Hx; rewrite (sm_keys_set k v Hw) inE => /orP[/eqP ->|]; first by lia.
exact: (allP Ha).
Qed.

(** Point updates of a vector driven by a map. *)
Lemma foldM_update (T : Type) (A : eqType) (x0 : T)
    (f : seq T -> nat * A -> res (seq T)) (h : nat -> A -> T) v0 l :
  uniq (sm_keys l) -> all (fun k => k < size v0) (sm_keys l) ->
  (forall v k a, (k, a) \in l -> size v = size v0 -> nth x0 v k = nth x0 v0 k ->
     (forall j, j \notin sm_keys l -> nth x0 v j = nth x0 v0 j) ->
     f v (k, a) = Ok (set_nth x0 v k (h k a))) ->
  exists v, [/\ foldM f v0 l = Ok v, size v = size v0 &
    forall i, nth x0 v i = if sm_find l i is Some a then h i a else nth x0 v0 i].
Proof.
move=> Hu Ha Hf.
have [n] : {n | n = size v0} by exists (size v0).
move=> En; rewrite -En in Ha *.
suff H : forall l' v1, size v1 = n ->
    {subset l' <= l} -> uniq (sm_keys l') ->
    {in sm_keys l', forall k, nth x0 v1 k = nth x0 v0 k} ->
    (forall j, j \notin sm_keys l -> nth x0 v1 j = nth x0 v0 j) ->
    exists v, [/\ foldM f v1 l' = Ok v, size v = n &
      forall i, nth x0 v i = if sm_find l' i is Some a then h i a else nth x0 v1 i].
  by apply: H.
elim=> [|[k a] l' IH] v1 Hs Hsub /= Hu' Hk Hj; first by exists v1.
move: Hu' => /andP[Hni Hu'].
have Hka : (k, a) \in l by apply: Hsub; rewrite inE eqxx.
have Hkl : k \in sm_keys l by apply/mapP; exists (k, a).
have Hkn : k < n by exact: (allP Ha).
rewrite Hf //=; [|by rewrite -En|by apply: Hk; rewrite inE eqxx].
have [|||||v [Hv Hsv Hn]] := IH (set_nth x0 v1 k (h k a)) => //.
- by rewrite size_set_nth Hs; apply/maxn_idPr.
- by move=> x Hx; apply: Hsub; rewrite inE Hx orbT.
- move=> j Hjl; rewrite nth_set_nth /=; case: eqP => [E|_].
    by rewrite -E Hjl in Hni.
  by apply: Hk; rewrite inE Hjl orbT.
- move=> j Hjl; rewrite nth_set_nth /=; case: eqP => [E|_]; last exact: Hj.
  by rewrite E Hkl in Hjl.
exists v; split => // i; rewrite Hn nth_set_nth /=.
case: (i =P k) => [->|//].
by rewrite sm_find_None.
Qed.
