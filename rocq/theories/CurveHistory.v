(** Histories of counting calls: every call is defined, the entries are the true counts, and
    the final state depends on the set of exponents only. *)
Set Warnings "-notation-overridden,-ambiguous-paths".
From mathcomp Require Import all_ssreflect ssralg ssrint poly polydiv finalg zify.
From Verif Require Import Res ResFacts FinField Tables TablesSpec TablesProofs CurveSpec Curve PointSpec PointCount
  CurveProofs PointMath.

Set Implicit Arguments.
Unset Strict Implicit.
Unset Printing Implicit Defensive.
Import GRing.Theory.
Local Open Scope ring_scope.

(** ** Sorted maps are determined by their lookups *)
Lemma sm_find_lt V (k k' : nat) (v' : V) m : sm_wf ((k', v') :: m) -> (k < k')%N ->
  sm_find ((k', v') :: m) k = None.
Proof.
move=> Hs Hk; apply: sm_find_None; rewrite inE negb_or neq_ltn Hk /=.
apply/negP => Hin; move: Hs; rewrite /sm_wf /= (path_sortedE ltn_trans) => /andP[/allP H _].
by have := H _ Hin; slia.
Qed.

Lemma sm_ext V (m m' : smap V) : sm_wf m -> sm_wf m' ->
  (forall k, sm_find m k = sm_find m' k) -> m = m'.
Proof.
elim: m m' => [|[k v] m IH] [|[k' v'] m'] Hm Hm' E //.
- by have := E k'; rewrite /= eqxx.
- by have := E k; rewrite /= eqxx.
have Ek : k = k'.
  case: (ltngtP k k') => // H.
    by have := E k; rewrite (sm_find_lt Hm' H) /= eqxx.
  by have := E k'; rewrite (sm_find_lt Hm H) /= eqxx.
subst k'; have := E k; rewrite /= eqxx => -[Ev]; subst v'; congr cons.
have Hw (n : smap V) w : sm_wf ((k, w) :: n) -> sm_wf n /\ sm_find n k = None.
  rewrite /sm_wf /= (path_sortedE ltn_trans) => /andP[/allP H ->]; split=> //.
  by apply: sm_find_None; apply/negP => /H; rewrite ltnn.
have [Hm1 Hk1] := Hw _ _ Hm; have [Hm2 Hk2] := Hw _ _ Hm'.
apply: IH => // j; have := E j; rewrite /=; case: eqP => [-> _|//]; by rewrite Hk1 Hk2.
Qed.

Section History.
Variables (F : finFieldType) (g : F) (p r W : nat).

(** The right hand side of a curve. *)
Local Notation rhs c := (poly_of g (c_coeffs c)).

(** The invariant: all entries are true counts of extensions that fit the machine word. *)
Definition points_ok (c : curve) : Prop :=
  sm_wf (c_points c) /\
  forall k u, sm_find (c_points c) k = Some u ->
    [/\ (0 < k)%N, (r %| k)%N, (2 * p ^ k + 2 < W)%N & u = base_counts (p ^ k) (rhs c)].

Lemma rhs_size c : curve_over g p r W c -> size (rhs c) = size (c_coeffs c).
Proof.
move=> [[Hg _ _ _ _] _ _ Hl /andP[Hs _]]; rewrite /poly_of (@PolyK _ 0) ?size_map //.
case: (c_coeffs c) Hl Hs => // x s; rewrite map_cons /= last_map => H _.
by rewrite elt_eq0.
Qed.

Lemma rhs_neq0 c : curve_over g p r W c -> rhs c != 0.
Proof.
move=> Hc; rewrite -size_poly_eq0 (rhs_size Hc); case: Hc => _ _ _ _ /andP[].
by case: size.
Qed.

Lemma count_found c t : c_prime c = p -> rt_prime t = p ->
  isSome (sm_find (c_points c) (rt_exponent t)) -> count W c t = Ok c.
Proof. by move=> Hc Ht Hf; rewrite /count Hc Ht eqxx /= /has_counted Hf. Qed.

Lemma call_ok c call : curve_over g p r W c -> valid_call g p r W call ->
  run_call W c call = Ok (if isSome (sm_find (c_points c) (call_exponent call)) then c else
    set_points c (call_exponent call) (base_counts (p ^ call_exponent call) (rhs c))).
Proof.
move=> Hc Hv.
have Hf := rhs_neq0 Hc.
case: c Hc Hf => cp cr cq v pts Hc Hf.
have [[Hg Ho Hp Hr Hq] [/= E1 E2 E3] /= Hall Hl /andP[Hs1 Hs2]] := Hc; subst cp cr cq.
have HoL k : (0 < k)%N -> odd (p ^ k).
  move=> Hk; rewrite oddX orbC; apply/orP; left.
  by move: Ho; rewrite Hq oddX; case: (odd p) => //; rewrite orbF; case: (r) Hr.
case: call Hv => [t|L G k] /=.
  case=> L [G [[Hk Hrk HQ HW [emb Hemb]] Ht]]; have [Ht1 _ _ _ _] := Ht.
  case E: (sm_find pts _) => [u|] /=.
    by rewrite count_found //= E.
  have HoQ : odd #|L| by rewrite HQ HoL.
  rewrite (@count_ok F L emb g G Hg Hemb p r (rt_exponent t) W Hp Hr Hq HQ Hrk _ v Hall Hl Hs1 HoQ HW Hs2 pts t Ht E).
    by rewrite (base_countsE emb HoQ Hf) HQ.
  by slia.
move=> [Hk Hrk HQ HW [emb Hemb]].
have HoQ : odd #|L| by rewrite HQ HoL.
case E: (sm_find pts k) => [u|] /=.
  rewrite /count_naive /= /has_counted /= E /=.
  by rewrite leqNgt Hk /= (eqP Hrk).
rewrite (@naive_ok F L emb g G Hg Hemb p r k W Hp Hr Hq HQ Hrk _ v Hall Hl Hs1 HoQ HW Hs2 pts E Hk).
  by rewrite (base_countsE emb HoQ Hf) HQ.
by slia.
Qed.

(** What remains the same. *)
Definition same_curve (c c' : curve) : Prop :=
  [/\ c_prime c' = c_prime c, c_exponent c' = c_exponent c, c_power c' = c_power c &
      c_coeffs c' = c_coeffs c].

Lemma same_over c c' : same_curve c c' -> curve_over g p r W c -> curve_over g p r W c'.
Proof. by case=> E1 E2 E3 E4; rewrite /curve_over E1 E2 E3 E4. Qed.

Lemma hist_ok c calls : curve_over g p r W c -> points_ok c ->
  (forall call, List.In call calls -> valid_call g p r W call) ->
  exists c', [/\ foldM (run_call W) c calls = Ok c', same_curve c c', points_ok c' &
    forall k, sm_find (c_points c') k =
      if sm_find (c_points c) k is Some u then Some u
      else if k \in [seq call_exponent call | call <- calls] then Some (base_counts (p ^ k) (rhs c)) else None].
Proof.
elim: calls c => [|call calls IH] c Hc Hp Hv.
  by exists c; split=> // k; case: sm_find.
have Hv1 : valid_call g p r W call by apply: Hv; left.
rewrite foldM_cons (call_ok Hc Hv1) {1}/bind.
set c1 := (if _ then _ else _).
have Hs : same_curve c c1 by rewrite /c1; case: ifP.
have Hr1 : rhs c1 = rhs c by case: Hs => _ _ _ ->.
have F1 k : sm_find (c_points c1) k = if sm_find (c_points c) k is Some u then Some u
    else if k == call_exponent call then Some (base_counts (p ^ k) (rhs c)) else None.
  rewrite /c1; case: ifP => Hf.
    case E: (sm_find _ k) => //; case: eqP => // Ek; by rewrite -Ek E in Hf.
  rewrite /= sm_find_set; last by case: Hp.
  case: eqP => [->|_]; last by case: sm_find.
  by case: sm_find Hf.
have Hval : [/\ (0 < call_exponent call)%N, (r %| call_exponent call)%N & (2 * p ^ call_exponent call + 2 < W)%N].
  case: (call) Hv1 => [t|L G k] /=; first by case=> L [G [[H1 H2 H3 H4 _] _]]; rewrite -H3.
  by case=> H1 H2 H3 H4 _; rewrite -H3.
have Hp1 : points_ok c1.
  split; first by rewrite /c1; case: ifP => _; [case: Hp|rewrite /= sm_wf_set //; case: Hp].
  move=> k u; rewrite F1 Hr1; case E: (sm_find _ k) => [u'|].
    by case=> <-; apply: (proj2 Hp).
  by case: eqP => // -> [<-]; case: Hval.
have [] := IH c1 (same_over Hs Hc) Hp1.
  by move=> cl Hcl; apply: Hv; right.
move=> c' [E S P Q]; exists c'; split=> //.
  by case: S => S1 S2 S3 S4; case: Hs => T1 T2 T3 T4; rewrite /same_curve S1 S2 S3 S4.
move=> k; rewrite Q F1 Hr1 map_cons inE; case: sm_find => //.
by case: eqP.
Qed.

(** ** The statements used in PropCurve.v *)

Definition counted_as (c : curve) (k : nat) (c' : curve) : Prop :=
  forall (L : finFieldType) (emb : {rmorphism F -> L}), #|L| = (p ^ k)%N ->
    sm_find (c_points c') k = Some (true_counts (map_poly emb (rhs c))).

Lemma base_as c k (L : finFieldType) (emb : {rmorphism F -> L}) : curve_over g p r W c ->
  (0 < k)%N -> #|L| = (p ^ k)%N -> base_counts (p ^ k) (rhs c) = true_counts (map_poly emb (rhs c)).
Proof.
move=> Hc Hk HQ; have Hf := rhs_neq0 Hc; rewrite -HQ base_countsE // HQ.
case: Hc => [[_ Ho Hp Hr Hq] _ _ _ _].
rewrite oddX orbC; apply/orP; left.
by move: Ho; rewrite Hq oddX; case: (odd p) => //; rewrite orbF; case: (r) Hr.
Qed.

Lemma points_nil c : c_points c = [::] -> points_ok c.
Proof. by move=> E; rewrite /points_ok E; split. Qed.

Lemma count_true c t (L : finFieldType) (G : L) (emb : {rmorphism F -> L}) :
  curve_over g p r W c -> c_points c = [::] ->
  (0 < rt_exponent t)%N -> (r %| rt_exponent t)%N -> #|L| = (p ^ rt_exponent t)%N ->
  (2 * #|L| + 2 < W)%N -> compatible emb g G -> table_of p (rt_exponent t) G t ->
  exists c' u n,
    [/\ count W c t = Ok c', c_points c' = [:: (rt_exponent t, (u, n))],
        (u + n)%N = curve_points (map_poly emb (rhs c)) & n = ramified_points (map_poly emb (rhs c))].
Proof.
move=> Hc Hn Hk Hrk HQ HW He Ht.
have Hv : valid_call g p r W (CallCount t).
  by exists L, G; split=> //; split=> //; exists emb.
have := call_ok Hc Hv; rewrite /= Hn /= => ->.
rewrite (base_as emb Hc Hk HQ) /true_counts.
eexists _, _, _; split; [by []|by rewrite /= Hn|  |by []].
rewrite subnK // points_split ?leq_addl //; last by rewrite map_poly_eq0 (rhs_neq0 Hc).
rewrite HQ; case: Hc => [[_ Ho Hp Hr Hq] _ _ _ _].
rewrite oddX orbC; apply/orP; left.
by move: Ho; rewrite Hq oddX; case: (odd p) => //; rewrite orbF; case: (r) Hr.
Qed.

Lemma agree c t (L : finFieldType) (G : L) : curve_over g p r W c -> c_points c = [::] ->
  valid_call g p r W (CallCount t) -> extension_of g p r W (rt_exponent t) G ->
  exists c', count W c t = Ok c' /\ count_naive G W c (rt_exponent t) = Ok c'.
Proof.
move=> Hc Hn Hv Hx; have := call_ok Hc Hv.
have := @call_ok c (CallNaive G (rt_exponent t)) Hc Hx.
by rewrite /= Hn /= => -> ->; eexists.
Qed.

Lemma history c calls : curve_over g p r W c -> c_points c = [::] ->
  (forall call, List.In call calls -> valid_call g p r W call) ->
  exists c', [/\ foldM (run_call W) c calls = Ok c', same_curve c c' &
    forall k, if k \in [seq call_exponent call | call <- calls] then counted_as c k c'
              else sm_find (c_points c') k = None].
Proof.
move=> Hc Hn Hv; have [c' [E S P Q]] := hist_ok Hc (points_nil Hn) Hv.
exists c'; split=> // k; case: ifP => Hk; last by rewrite Q Hn Hk.
move=> L emb HQ; rewrite Q Hn Hk; congr Some; apply: base_as => //.
have := Q k; rewrite Hn Hk => /(proj2 P); by case.
Qed.

Lemma history_order c calls calls' : curve_over g p r W c -> c_points c = [::] ->
  (forall call, List.In call (calls ++ calls') -> valid_call g p r W call) ->
  [seq call_exponent call | call <- calls] =i [seq call_exponent call | call <- calls'] ->
  foldM (run_call W) c calls = foldM (run_call W) c calls'.
Proof.
move=> Hc Hn Hv He.
have [|c1 [E1 S1 P1 Q1]] := @hist_ok c calls Hc (points_nil Hn).
  by move=> call H; apply: Hv; apply/List.in_or_app; left.
have [|c2 [E2 S2 P2 Q2]] := @hist_ok c calls' Hc (points_nil Hn).
  by move=> call H; apply: Hv; apply/List.in_or_app; right.
rewrite E1 E2; congr Ok.
have Ep : c_points c1 = c_points c2.
  by apply: sm_ext => [||k]; [case: P1|case: P2|rewrite Q1 Q2 He].
case: c1 c2 S1 S2 Ep {E1 E2 P1 P2 Q1 Q2} => ? ? ? ? ? [? ? ? ? ?] [/= -> -> -> ->] [/= -> -> -> ->] ->.
by [].
Qed.

(** ** Offsets *)
Lemma mpe_loopE pts fuel k : (0 < r)%N -> (r <= k)%N ->
  (exists j, sm_find pts (k + j * r) = None /\ (j <= fuel)%N) ->
  exists m, [/\ mpe_loop fuel r pts k = Ok (k + m * r - r)%N,
    forall j, (j < m)%N -> isSome (sm_find pts (k + j * r)) & sm_find pts (k + m * r) = None].
Proof.
move=> Hr; elim: fuel k => [|fuel IH] k Hk [j [Hj Hjf]] /=.
  have E0 : j = 0%N by slia.
  subst j; exists 0%N; split=> //.
  by move: Hj; rewrite mul0n addn0 => ->.
case E: (sm_find pts k) => [u|] /=; last first.
  by exists 0%N; split=> //; rewrite mul0n addn0.
have Hj0 : j != 0%N by apply/eqP => E0; move: Hj; rewrite E0 mul0n addn0 E.
have [|m [Em Ha Hm]] := IH (k + r)%N (leq_trans Hk (leq_addr _ _)).
  exists j.-1; split; last by slia.
  by rewrite -Hj; congr (sm_find pts); case: (j) Hj0 => // j' _; rewrite mulSn addnA.
exists m.+1; rewrite mulSn; split.
- by rewrite Em; congr Ok; slia.
- case=> [_|j' Hj']; first by rewrite mul0n addn0 E.
  by rewrite mulSn addnA; apply: Ha.
- by rewrite addnA.
Qed.

Lemma sm_missing V (pts : smap V) (h : nat -> nat) : injective h ->
  exists j, sm_find pts (h j) = None /\ (j <= size pts)%N.
Proof.
move=> Hh.
case H: (all (fun j => isSome (sm_find pts (h j))) (iota 0 (size pts).+1)); last first.
  have /allPn[j] := negbT H; rewrite mem_iota => Hj; case E: (sm_find _ _) => // _.
  by exists j; split=> //; slia.
have Hs : {subset map h (iota 0 (size pts).+1) <= sm_keys pts}.
  by move=> x /mapP[j Hj ->]; rewrite -sm_find_keys; apply: (allP H).
have := uniq_leq_size _ Hs; rewrite (map_inj_uniq Hh) iota_uniq => /(_ isT).
by rewrite !size_map size_iota ltnn.
Qed.

Lemma mult_nth m j : (0 < r)%N -> (j < m)%N -> nth 0%N (multiples r (m * r)) j = (j.+1 * r)%N.
Proof.
move=> Hr Hj; rewrite /multiples mulnK // (nth_map 0%N) ?size_iota // nth_iota //.
Qed.

Lemma sm_find_map V V' (h : nat -> V -> V') (m : smap V) k :
  sm_find [seq (kv.1, h kv.1 kv.2) | kv <- m] k = omap (h k) (sm_find m k).
Proof. by elim: m => [|[k' v] m IH] //=; case: eqP => // ->. Qed.

Lemma offsets c calls : curve_over g p r W c -> c_points c = [::] ->
  (forall call, List.In call calls -> valid_call g p r W call) ->
  exists c' m N,
    [/\ foldM (run_call W) c calls = Ok c',
        forall fuel, (N <= fuel)%N -> max_prime_exponent fuel c' = Ok (m * r)%N,
        forall j, (j < m)%N -> (j.+1 * r)%N \in [seq call_exponent call | call <- calls],
        (m.+1 * r)%N \notin [seq call_exponent call | call <- calls] &
        size (hasse_weil_offsets W c' (m * r)) = m /\
        forall j (L : finFieldType) (emb : {rmorphism F -> L}), (j < m)%N -> #|L| = (#|F| ^ j.+1)%N ->
          nth 0 (hasse_weil_offsets W c' (m * r)) j =
            (#|L| + 1)%:Z - (curve_points (map_poly emb (rhs c)))%:Z].
Proof.
move=> Hc Hn Hv; have [c' [E S P Q]] := hist_ok Hc (points_nil Hn) Hv.
have [[_ Ho Hp Hr Hq] [Ep Ee _] _ _ _] := Hc.
have [Sp Se _ _] := S; rewrite Ep in Sp; rewrite Ee in Se.
have Hf k : isSome (sm_find (c_points c') k) = (k \in [seq call_exponent call | call <- calls]).
  by rewrite Q Hn /=; case: ifP.
have Hinj : injective (fun j => r + j * r)%N.
  by move=> i j /eqP; rewrite eqn_add2l eqn_mul2r; case: (r) Hr => // r' _ /= /eqP.
have [m0 [Hm0 Hsz]] := sm_missing (c_points c') Hinj.
have [|m [Em Ha Hm]] := @mpe_loopE (c_points c') m0 r Hr (leqnn r).
  by exists m0.
exists c', m, m0; split=> //.
- move=> fuel Hfuel; rewrite /max_prime_exponent Se.
  have [|m' [-> Ha' Hm']] := @mpe_loopE (c_points c') fuel r Hr (leqnn r).
    by exists m0.
  have -> : m' = m.
    case: (ltngtP m' m) => // H; first by have := Ha _ H; rewrite Hm'.
    by have := Ha' _ H; rewrite Hm.
  by congr Ok; slia.
- by move=> j Hj; rewrite -Hf mulSn; apply: Ha.
- by rewrite -Hf mulSn Hm.
split; first by rewrite /hasse_weil_offsets /multiples !size_map size_iota Se mulnK.
move=> j L emb Hj HQ.
rewrite /hasse_weil_offsets Se (nth_map 0%N); last by rewrite /multiples size_map size_iota mulnK.
rewrite (mult_nth Hr Hj) /hasse_weil_map Sp.
rewrite (@sm_find_map _ _ (fun k (u : nat * nat) => (p ^ k + 1)%:Z - (uadd W u.1 u.2)%:Z)).
have := Ha j Hj; rewrite -mulSn.
case Ef: (sm_find _ _) => [u|] // _ /=.
have [Hk Hrk HWk Eu] := proj2 P _ _ Ef.
have HQ' : #|L| = (p ^ (j.+1 * r))%N by rewrite HQ Hq -expnM mulnC.
have Eu' : u = true_counts (map_poly emb (rhs c)).
  by rewrite Eu -(base_as emb Hc Hk HQ'); congr base_counts; case: S => _ _ _ ->.
rewrite -HQ'; congr (_ - Posz _).
have HoQ : odd #|L| by rewrite HQ oddX Ho orbT.
have Hf0 : map_poly emb (rhs c) != 0 by rewrite map_poly_eq0 (rhs_neq0 Hc).
rewrite Eu' true_countsE // /uadd /= -points_split // modn_small //.
have := affine_points_sum HoQ (map_poly emb (rhs c)).
rewrite points_split // /unramified /ramified_points.
have H1 : (#|[set x | sqnz (map_poly emb (rhs c)).[x]%R]| + #|[set x | root (map_poly emb (rhs c)) x]| <= #|L|)%N.
  rewrite -cardsUI (_ : _ :&: _ = set0) ?cards0 ?addn0 ?max_card //.
  by apply/setP => x; rewrite !inE /sqnz /root andbAC andNb.
move=> _; move: H1 HWk; rewrite -HQ'.
move: (odd _) (sqnz (lead_coef _)) #|[set x | sqnz _]| #|[set x | root _ _]| #|L| => d s A B C.
by case: d; case: s; slia.
Qed.

End History.

Lemma history_defined (F : finFieldType) (g : F) (p r W : nat) c calls :
  curve_over g p r W c -> c_points c = [::] ->
  (forall call, List.In call calls -> valid_call g p r W call) ->
  exists c', foldM (run_call W) c calls = Ok c'.
Proof. by move=> Hc Hn Hv; have [c' [E _ _]] := history Hc Hn Hv; exists c'. Qed.
