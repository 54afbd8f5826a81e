(** The evaluation kernel against the loop on the CPU, and the sums computed by the reduction kernel. *)
Set Warnings "-notation-overridden,-ambiguous-paths".
From mathcomp Require Import all_ssreflect ssralg ssrint poly polydiv finalg zify.
From Verif Require Import Res ResFacts FinField Tables TablesSpec TablesProofs CurveSpec Curve PointSpec PointCount
  EnumTheorems CurveProofs OpenCL.

Set Implicit Arguments.
Unset Strict Implicit.
Unset Printing Implicit Defensive.
Import GRing.Theory.

(** ** Sums *)
Lemma host_sumE M v : sumn v < M -> host_sum M v = Ok (sumn v).
Proof.
suff H a : a + sumn v < M -> foldM (iadd M) a v = Ok (a + sumn v) by move=> Hv; exact: (H 0).
elim: v a => [|x v IH] a /= H; first by rewrite addn0.
have Hx : a + x < M by lia.
by rewrite /iadd Hx /= IH ?addnA // -addnA.
Qed.

(** Each item of [ord] that satisfies [P] writes its own place, reading that place and places nobody writes. *)
Lemma foldM_slots (T : Type) (x0 : T) (P : pred nat) (f : seq T -> nat -> res (seq T)) (h : nat -> T) v0 ord :
  uniq ord -> all (fun k => k < size v0) ord ->
  (forall v k, k \in ord -> P k -> size v = size v0 -> nth x0 v k = nth x0 v0 k ->
     (forall j, ~~ P j -> nth x0 v j = nth x0 v0 j) -> f v k = Ok (set_nth x0 v k (h k))) ->
  (forall v k, k \in ord -> ~~ P k -> f v k = Ok v) ->
  exists v, [/\ foldM f v0 ord = Ok v, size v = size v0 &
    forall i, nth x0 v i = if (i \in ord) && P i then h i else nth x0 v0 i].
Proof.
move=> Hu Ha Hf Hn.
suff H : forall l v1, size v1 = size v0 -> {subset l <= ord} -> uniq l ->
    (forall k, k \in l -> nth x0 v1 k = nth x0 v0 k) -> (forall j, ~~ P j -> nth x0 v1 j = nth x0 v0 j) ->
    exists v, [/\ foldM f v1 l = Ok v, size v = size v0 &
      forall i, nth x0 v i = if (i \in l) && P i then h i else nth x0 v1 i].
  by apply: H.
elim=> [|k l IH] v1 Hs Hsub /= Hul Hk Hj; first by exists v1.
move: Hul => /andP[Hni Hul].
have Hko : k \in ord by apply: Hsub; rewrite inE eqxx.
have Hkn : k < size v0 by exact: (allP Ha).
have Hsub' : {subset l <= ord} by move=> x Hx; apply: Hsub; rewrite inE Hx orbT.
have Hk' j : j \in l -> nth x0 v1 j = nth x0 v0 j by move=> H; apply: Hk; rewrite inE H orbT.
case HP: (P k); last first.
  rewrite Hn ?HP //=; have [v [Hv Hsv E]] := IH v1 Hs Hsub' Hul Hk' Hj.
  exists v; split => // i; rewrite E inE; case: (i =P k) => [->|//].
  by rewrite HP !andbF.
rewrite Hf //=; last by apply: Hk; rewrite inE eqxx.
have [|||v [Hv Hsv E]] := IH (set_nth x0 v1 k (h k)) _ Hsub' Hul.
- by rewrite size_set_nth Hs; apply/maxn_idPr.
- move=> j Hjl; rewrite nth_set_nth /=; case: eqP => [E|_]; last exact: Hk'.
  by rewrite -E Hjl in Hni.
- move=> j Hjl; rewrite nth_set_nth /=; case: eqP => [E|_]; last exact: Hj.
  by rewrite E HP in Hjl.
exists v; split => // i; rewrite E nth_set_nth /= inE.
by case: (i =P k) => [->|//]; rewrite (negbTE Hni) HP.
Qed.

(** ** The evaluation kernel *)
Section Evaluation.
Variables (L : finFieldType) (G : L) (W M : nat) (inc : seq nat).
Local Notation Q := #|L|.
Hypothesis HG : generator G.
Hypothesis Hinc : increments G inc.
Hypothesis HW : 2 * Q <= W.
Hypothesis HM : 2 * Q <= M.
Local Notation red := (exponent_reduction_table Q).

Lemma kernel_step_ok x f xpw cf : x < Q.-1 -> f < Q -> cf < Q -> xpw < Q.-1 ->
  exists f' z, [/\ kernel_step M Q.-1 red inc x (f, xpw) cf = Ok (f', z),
    cpu_step W Q.-1 red inc x (f, xpw + x) cf = Ok (f', z + x), f' < Q & z < Q.-1].
Proof.
move=> Hx Hf Hcf Hxpw; have Hq := pred_q_gt0 L; have Hq1 := card_gt1 L.
have Hx' : x <= Q.-1 by lia.
have Hsum : xpw + x < 2 * Q.-1 by slia.
have [f' [xpw' [E Hf' Hxpw' _ _]]] := cpu_step_ok HG Hinc HW Hx' Hf Hcf Hsum.
have Hz : (xpw + x) %% Q.-1 < Q.-1 by rewrite ltn_mod.
exists f', ((xpw + x) %% Q.-1).
have Hadd a b : a < Q.-1 -> b < Q.-1 -> uadd W a b = a + b.
  by move=> Ha Hb; rewrite /uadd modn_small //; slia.
have Hiadd a b : a < Q.-1 -> b < Q.-1 -> iadd M a b = Ok (a + b).
  by move=> Ha Hb; rewrite /iadd ifT //; slia.
have Hmod a b : a < Q.-1 -> b < Q.-1 -> vget red (a + b) = Ok ((a + b) %% Q.-1).
  by move=> Ha Hb; apply: redE; slia.
move: E; rewrite /cpu_step /kernel_step Hiadd //= Hmod //= (Hadd _ x) //.
move: Hz; move: ((xpw + x) %% Q.-1) => z Hz.
case: (cf =P Q.-1) => [Ecf|/eqP Ncf] /=; first by case=> -> _; split.
have Hcf' : cf < Q.-1 by slia.
rewrite Hadd // Hiadd //= Hmod //.
have Hm : (cf + z) %% Q.-1 < Q.-1 by rewrite ltn_mod.
move: ((cf + z) %% Q.-1) Hm => m Hm.
case: (f =P Q.-1) => [Ef|/eqP Nf] /=; first by case=> -> _; split.
have Hf1 : f < Q.-1 by slia.
have [lo [hi [-> Hlo Hhi]]] : exists lo hi,
    [/\ (if m <= f then (m, f) else (f, m)) = (lo, hi), lo < Q.-1 & hi < Q.-1].
  by case: ifP => _; [exists m, f|exists f, m].
have [Hsz Hi] := Hinc.
have Hd : hi - lo < Q by slia.
rewrite (vgetE 0) ?Hsz //=.
have [Hi1 _] := Hi _ Hd.
move: (nth 0 inc (hi - lo)) Hi1 => n Hn.
case: eqP => [En|/eqP Nn] /=; first by case=> <- _; split=> //; slia.
have Hn' : n < Q.-1 by slia.
rewrite Hadd // Hiadd //= Hmod //=.
by case=> -> _; split.
Qed.

Lemma kernel_loop_ok x cs f xpw : x < Q.-1 -> f < Q -> xpw < Q.-1 -> all (fun c => c < Q) cs ->
  exists f' z z', [/\ foldM (kernel_step M Q.-1 red inc x) (f, xpw) cs = Ok (f', z) &
    foldM (cpu_step W Q.-1 red inc x) (f, xpw + x) cs = Ok (f', z')].
Proof.
move=> Hx; elim: cs f xpw => [|c cs IH] f xpw Hf Hxpw; first by exists f, xpw, (xpw + x).
case/andP=> Hc Hcs; rewrite !foldM_cons.
have [f1 [z [-> -> Hf1 Hz]]] := kernel_step_ok Hx Hf Hc Hxpw.
exact: IH.
Qed.

Variable cs : seq nat.
Hypothesis Hne : cs != [::].
Hypothesis Hcs : all (fun c => c < Q) cs.

Lemma kernel_evalE x : x < Q.-1 -> kernel_eval M Q.-1 red inc cs x = cpu_eval W Q.-1 red inc cs x.
Proof.
move=> Hx; move: Hne Hcs; case: cs => // c cs' _ /= /andP[Hc Hcs'].
have Hq := pred_q_gt0 L.
have [f [z [z' [E1]]]] := kernel_loop_ok Hx Hc Hq Hcs'.
by rewrite /kernel_eval /cpu_eval /= E1 add0n => ->.
Qed.

(** The value found for the item [x]. *)
Definition item_value x := if cpu_eval W Q.-1 red inc cs x is Ok f then f else 0.

Lemma item_valueE x : x <= Q.-1 -> cpu_eval W Q.-1 red inc cs x = Ok (item_value x) /\ item_value x < Q.
Proof.
move=> Hx; have [f [E Hf _]] := cpu_eval_ok HG Hinc HW Hx Hne Hcs.
by rewrite /item_value E.
Qed.

Lemma item_value_last : item_value Q.-1 = item_value 0.
Proof.
have [f [E Hf Ef]] := cpu_eval_ok HG Hinc HW (leqnn Q.-1) Hne Hcs.
have [f0 [E0 Hf0 Ef0]] := cpu_eval_ok HG Hinc HW (leq0n Q.-1) Hne Hcs.
rewrite /item_value E E0; apply: (elt_of_inj HG) => //.
rewrite Ef Ef0; congr (_.[_])%R.
by rewrite -(genX_mod HG) modnn.
Qed.

Lemma tally_sums fs pts : all (fun f => f < Q) fs ->
  pts.1 + sumn [seq (kernel_out Q.-1 f).1 | f <- fs] < W ->
  pts.2 + sumn [seq (kernel_out Q.-1 f).2 | f <- fs] < W ->
  foldl (tally W Q.-1) pts fs =
  (pts.1 + sumn [seq (kernel_out Q.-1 f).1 | f <- fs], pts.2 + sumn [seq (kernel_out Q.-1 f).2 | f <- fs]).
Proof.
elim: fs pts => [|f fs IH] [a b] /=; first by rewrite !addn0.
case/andP=> Hf Hfs; have {}IH pts := IH pts Hfs.
move: (sumn _) (sumn _) IH => A B IH; rewrite /tally /kernel_out /uadd.
case: eqP => _ /=; last case: (odd f) => /= H1 H2.
- by move=> H1 H2; rewrite modn_small ?IH //=; try lia; congr (_, _); lia.
- by rewrite IH.
- by rewrite modn_small ?IH //=; try lia; congr (_, _); lia.
Qed.

Lemma out_le fs : sumn [seq (kernel_out Q.-1 f).1 | f <- fs] <= 2 * size fs /\
  sumn [seq (kernel_out Q.-1 f).2 | f <- fs] <= size fs.
Proof.
elim: fs => [|f fs] //=; move: (sumn _) (sumn _) => A B [H1 H2].
by rewrite /kernel_out; case: eqP => _ /=; last case: ifP => _ /=; split; lia.
Qed.

Lemma evaluate_ok p k order u0 r0 : perm_eq order (iota 0 Q.-1) -> size u0 = Q.-1 -> size r0 = Q.-1 ->
  exists u r a b, [/\ evaluate M (RedTable p k Q red inc) cs order (u0, r0) = Ok (u, r),
    host_sum M u = Ok a, host_sum M r = Ok b, a < W /\ b < W &
    count_cpu W (RedTable p k Q red inc) cs (0, 0) = Ok (a, b)].
Proof.
move=> Hord Hu0 Hr0; have Hq := pred_q_gt0 L; have Hq1 := card_gt1 L.
pose h x := kernel_out Q.-1 (item_value x).
have Hmem x : x \in order -> x < Q.-1 by rewrite (perm_mem Hord) mem_iota.
have [u [r [E Hu Hr Hi]]] : exists u r, [/\ evaluate M (RedTable p k Q red inc) cs order (u0, r0) = Ok (u, r),
    size u = Q.-1, size r = Q.-1 & forall x, x \in order -> nth 0 u x = (h x).1 /\ nth 0 r x = (h x).2].
  rewrite /evaluate /=.
  have Huniq : uniq order by rewrite (perm_uniq Hord) iota_uniq.
  suff H : forall l u1 r1, size u1 = Q.-1 -> size r1 = Q.-1 -> {subset l <= order} -> uniq l ->
      exists u r, [/\ foldM (kernel_item M Q.-1 red inc cs) (u1, r1) l = Ok (u, r), size u = Q.-1, size r = Q.-1,
        forall x, x \in l -> nth 0 u x = (h x).1 /\ nth 0 r x = (h x).2 &
        forall x, x \notin l -> nth 0 u x = nth 0 u1 x /\ nth 0 r x = nth 0 r1 x].
    have [|u [r [E1 E2 E3 E4 _]]] := H order u0 r0 Hu0 Hr0 _ Huniq; first by move=> x.
    by exists u, r.
  elim=> [|x l IH] u1 r1 Hu1 Hr1 Hsub; first by exists u1, r1.
  case/andP=> Hni Hul; have Hx : x < Q.-1 by apply: Hmem; apply: Hsub; rewrite inE eqxx.
  rewrite foldM_cons {1}/kernel_item kernel_evalE //.
  have [Ev _] := item_valueE (ltnW Hx).
  rewrite Ev /= !(vsetE 0) ?Hu1 ?Hr1 //=.
  have [||||u [r [E1 E2 E3 E4 E5]]] := IH (set_nth 0 u1 x (h x).1) (set_nth 0 r1 x (h x).2).
  - by rewrite size_set_nth Hu1; apply/maxn_idPr.
  - by rewrite size_set_nth Hr1; apply/maxn_idPr.
  - by move=> y Hy; apply: Hsub; rewrite inE Hy orbT.
  - exact: Hul.
  exists u, r; split=> // y; rewrite inE.
    case/orP => [/eqP ->|]; last exact: E4.
    by have [-> ->] := E5 _ Hni; rewrite !nth_set_nth /= eqxx.
  rewrite negb_or => /andP[Hyx Hyl]; have [-> ->] := E5 _ Hyl.
  by rewrite !nth_set_nth /= (negbTE Hyx).
pose fs := [seq item_value x | x <- iota 0 Q.-1].
have Eu : u = [seq (kernel_out Q.-1 f).1 | f <- fs].
  apply: (@eq_from_nth _ 0); first by rewrite Hu !size_map size_iota.
  move=> x; rewrite Hu => Hx; rewrite -map_comp (nth_map 0) ?size_iota // nth_iota // add0n.
  by have [|-> _] := Hi x; first by rewrite (perm_mem Hord) mem_iota.
have Er : r = [seq (kernel_out Q.-1 f).2 | f <- fs].
  apply: (@eq_from_nth _ 0); first by rewrite Hr !size_map size_iota.
  move=> x; rewrite Hr => Hx; rewrite -map_comp (nth_map 0) ?size_iota // nth_iota // add0n.
  by have [|_ ->] := Hi x; first by rewrite (perm_mem Hord) mem_iota.
have Hsz : size fs = Q.-1 by rewrite size_map size_iota.
have [L1 L2] := out_le fs; rewrite Hsz -Eu -Er in L1 L2.
exists u, r, (sumn u), (sumn r); split=> //; [by apply: host_sumE; slia|by apply: host_sumE; slia|by split; slia|].
rewrite /count_cpu /= (@foldM_Ok _ _ _ (fun pts x => tally W Q.-1 pts (item_value x))); last first.
  move=> pts x; rewrite mem_iota => Hx.
  by have [|-> _] := @item_valueE x; first by slia.
have -> : foldl (fun pts x => tally W Q.-1 pts (item_value x)) (0, 0) (iota 1 Q.-1) =
          foldl (tally W Q.-1) (0, 0) [seq item_value x | x <- iota 1 Q.-1].
  by elim: (iota _ _) (0, 0) => //= x s IH a; rewrite IH.
have Hrot : [seq item_value x | x <- iota 1 Q.-1] = rot 1 fs.
  rewrite /fs; move: item_value_last; case: (Q.-1) Hq => // n _ E'.
  have -> : iota 1 n.+1 = rcons (iota 1 n) n.+1 by rewrite -cats1 -{1}[n.+1]addn1 iotaD.
  by rewrite map_rcons E' /= rot1_cons.
have Hall : all (fun f => f < Q) fs.
  apply/allP=> f /mapP[x]; rewrite mem_iota => Hx ->.
  by have [|_] := @item_valueE x; first by slia.
have Hp (g : nat -> nat) : sumn (map g (rot 1 fs)) = sumn (map g fs).
  by apply: perm_sumn; apply: perm_map; rewrite perm_rot.
rewrite Hrot tally_sums /= ?Hp ?add0n -?Eu -?Er //; [|by slia|by slia].
by rewrite (eq_all_r (mem_rot 1 fs)).
Qed.
End Evaluation.

Lemma evaluate_cpu (L : finFieldType) (G : L) p k t W M cs order u0 r0 :
  generator G -> table_of p k G t -> 2 * #|L| <= W -> 2 * #|L| <= M ->
  cs != [::] -> all (fun c => c < #|L|) cs ->
  perm_eq order (iota 0 #|L|.-1) -> size u0 = #|L|.-1 -> size r0 = #|L|.-1 ->
  exists u r a b, [/\ evaluate M t cs order (u0, r0) = Ok (u, r),
    host_sum M u = Ok a, host_sum M r = Ok b, a < W /\ b < W & count_cpu W t cs (0, 0) = Ok (a, b)].
Proof.
move=> HG; case: t => tp tk tq tred tinc [] /= -> -> -> -> Hinc HW HM Hne Hcs Hord Hu Hr.
by apply: (evaluate_ok HG Hinc HW HM Hne Hcs).
Qed.

(** ** Counting with a device *)
Lemma count_device (F : finFieldType) (g : F) p r W M c t (L : finFieldType) (G : L) (emb : {rmorphism F -> L})
    order u0 r0 :
  curve_over g p r W c -> r %| rt_exponent t -> #|L| = p ^ rt_exponent t -> 2 * #|L| <= W -> 2 * #|L| <= M ->
  compatible emb g G -> table_of p (rt_exponent t) G t ->
  perm_eq order (iota 0 #|L|.-1) -> size u0 = #|L|.-1 -> size r0 = #|L|.-1 ->
  count_with_opencl W M c t true order (u0, r0) = count W c t.
Proof.
case: c => cp cr cq v pts [[Hg _ Hp Hr0 Hq] [/= -> -> ->] Hv _ /andP[Hsz _]].
move=> Hrk HL HW HM HG Ht Hord Hu Hr.
have [Et Ek Epow _ _] := Ht.
rewrite /count_with_opencl /count; case: ifP => // _; case: ifP => // _.
have HWL : #|L| <= W by slia.
have [cs [-> Hcs Hall _]] := convert_ok Hg HG Hp Hr0 Hq HL Hrk HWL pts Et (erefl _) Epow Hv.
rewrite {1}/bind {3}/bind /count_opencl /enqueue Hcs /degree /= prednK ?eqxx /=; last by lia.
have Hne : cs != [::] by rewrite -size_eq0 Hcs; lia.
have [u [rr [a [b [-> E1 E2 [Ha Hb] ->]]]]] := evaluate_cpu (proj1 HG) Ht HW HM Hne Hall Hord Hu Hr.
by rewrite /= E1 /= E2 /= /uadd !add0n !modn_small.
Qed.

Lemma count_device_late W M c t order bufs :
  rt_prime t = c_prime c -> has_counted c (rt_exponent t) = false ->
  forall cs, convert_coeffs W c t = Ok cs -> size cs = (degree c).+1 ->
  count_with_opencl W M c t false order bufs = Undef.
Proof.
by move=> Ep Hc cs E Hs; rewrite /count_with_opencl Ep eqxx /= Hc E /= /count_opencl /enqueue Hs eqxx.
Qed.

(** ** The reduction kernel *)
Section Sums.
Variables (M gsz : nat) (items : seq nat).
Hypothesis Hgsz : 0 < gsz.
Hypothesis Hlen : size items + gsz <= M.
Hypothesis Hsum : sumn items < M.
Local Notation len := (size items).
Local Notation It := (nth 0 items).

(** The sum of the entries an item of global id [ix] adds up. *)
Definition strided ix := \sum_(0 <= i < len | i %% gsz == ix %% gsz) It i.

Lemma sumn_nth (v : seq nat) : sumn v = \sum_(0 <= i < size v) nth 0 v i.
Proof. by rewrite sumnE (big_nth 0). Qed.

Lemma tail_step ix : ix < len ->
  \sum_(0 <= i < len | (ix <= i) && (i %% gsz == ix %% gsz)) It i =
  It ix + \sum_(0 <= i < len | (ix + gsz <= i) && (i %% gsz == (ix + gsz) %% gsz)) It i.
Proof.
move=> Hix; rewrite big_mkcond (bigD1_seq ix) ?mem_index_iota ?iota_uniq //= leqnn eqxx /= -big_mkcondr.
congr (_ + _); apply: eq_bigl => i; rewrite modnDr.
case: (i %% gsz =P ix %% gsz) => [E|]; last by rewrite !andbF.
rewrite !andbT; apply/andP/idP => [[H2 H1]|H]; last by split; lia.
have H3 : ix <= i by [].
have : gsz %| i - ix by rewrite -eqn_mod_dvd //; apply/eqP.
have H4 : 0 < i - ix by move/eqP: H2 => H2; lia.
by move/(dvdn_leq H4); lia.
Qed.

Lemma no_tail ix : len <= ix -> \sum_(0 <= i < len | (ix <= i) && (i %% gsz == ix %% gsz)) It i = 0.
Proof.
move=> Hix; rewrite big_nat_cond big_pred0 // => i /=.
by apply/negbTE/negP => /and3P[H1 H2 _]; lia.
Qed.

Lemma acc_loop_ok (gs ls : nat) fuel ix acc : gs * ls = gsz -> len - ix <= fuel ->
  acc + \sum_(0 <= i < len | (ix <= i) && (i %% gsz == ix %% gsz)) It i < M ->
  acc_loop M ls gs items len fuel ix acc =
  Ok (acc + \sum_(0 <= i < len | (ix <= i) && (i %% gsz == ix %% gsz)) It i).
Proof.
move=> Egsz; elim: fuel ix acc => [|fuel IH] ix acc Hf.
  have Hix : len <= ix by lia.
  by rewrite no_tail // addn0 /= (ltnNge ix) Hix.
rewrite /=; case: (ltnP ix len) => Hix; last first.
  by rewrite no_tail // addn0.
rewrite tail_step // addnA => HM; rewrite (vgetE 0) //= /iadd Egsz.
have -> : acc + It ix < M by lia.
have -> /= : ix + gsz < M by lia.
by apply: IH => //; lia.
Qed.

Lemma strided_le ix : strided ix <= sumn items.
Proof.
rewrite /strided sumn_nth big_mkcond /=; apply: leq_sum => i _; by case: ifP.
Qed.

Lemma stridedE ix : ix < gsz ->
  \sum_(0 <= i < len | (ix <= i) && (i %% gsz == ix %% gsz)) It i = strided ix.
Proof.
move=> Hix; apply: eq_bigl => i; rewrite (modn_small Hix).
case: eqP => [E|]; rewrite ?andbF ?andbT //; rewrite -E; exact: leq_mod.
Qed.

Lemma strided_total : \sum_(0 <= ix < gsz) strided ix = sumn items.
Proof.
rewrite sumn_nth /strided.
under eq_bigr => ix _ do rewrite big_mkcond.
rewrite exchange_big_nat; apply: eq_big_nat => i _ /=.
rewrite (bigD1_seq (i %% gsz)) ?mem_index_iota ?ltn_mod ?iota_uniq //= modn_mod eqxx.
rewrite big1_seq ?addn0 // => j /andP[Hj]; rewrite mem_index_iota => Hj'.
by rewrite (modn_small Hj') eq_sym (negbTE Hj).
Qed.
End Sums.

(** The sum over a group. *)
Definition group_sum (items : seq nat) gsz lsz g := \sum_(0 <= l < lsz) strided gsz items (g * lsz + l).

Lemma sum_blocks (f : nat -> nat) n s :
  \sum_(0 <= j < n * s) f j = \sum_(0 <= g < n) \sum_(0 <= l < s) f (g * s + l).
Proof.
elim: n => [|n IH]; first by rewrite mul0n !big_geq.
rewrite big_nat_recr //= -IH mulSn addnC (big_cat_nat _ _ _ (leq0n _) (leq_addr s _)) /=.
congr (_ + _); rewrite -{1}[n * s]add0n big_addn addKn.
by apply: eq_bigr => l _; rewrite addnC.
Qed.

Lemma perm_iota_all n (ord : seq nat) : perm_eq ord (iota 0 n) -> uniq ord /\ forall i, (i \in ord) = (i < n).
Proof.
by move=> H; split=> [|i]; rewrite ?(perm_uniq H) ?iota_uniq // (perm_mem H) mem_iota.
Qed.

Section Kernel.
Variables (M size_ lsz groups : nat) (items : seq nat) (fuel : nat).
Local Notation gsz := (groups * lsz).
Local Notation len := (size items).
Hypothesis Hsize : 0 < size_.
Hypothesis Hlsz : 0 < lsz.
Hypothesis Hgroups : 0 < groups.
Hypothesis Hlen : len + gsz <= M.
Hypothesis Hsum : sumn items < M.
Hypothesis Hfuel : len <= fuel.

Lemma gsz_gt0 : 0 < gsz. Proof. by rewrite muln_gt0 Hgroups. Qed.

Lemma init_ok g mem0 ord : g < groups -> size mem0 = lsz -> perm_eq ord (iota 0 lsz) ->
  exists mem, [/\ foldM (init_item M lsz groups items len fuel g) mem0 ord = Ok mem, size mem = lsz &
    forall l, l < lsz -> nth 0 mem l = strided gsz items (g * lsz + l)].
Proof.
move=> Hg Hm /perm_iota_all[Hu Hmem].
have [|v k Hk _ Hs _ _|//|mem [E1 E2 E3]] := @foldM_slots _ 0 xpredT (init_item M lsz groups items len fuel g)
  (fun l => strided gsz items (g * lsz + l)) mem0 ord Hu.
- by apply/allP => k; rewrite Hmem Hm.
- rewrite Hmem in Hk; rewrite /init_item.
  have Hix : g * lsz + k < gsz.
    have : g.+1 * lsz <= groups * lsz by rewrite leq_mul2r Hg orbT.
    by rewrite mulSn; lia.
  have Hle := strided_le gsz items (g * lsz + k).
  rewrite (acc_loop_ok gsz_gt0 Hlen Hsum (erefl _)) ?stridedE //=; [|by lia|by rewrite add0n; lia].
  by rewrite add0n (vsetE 0) // Hs Hm.
exists mem; split=> //; first by rewrite E2.
by move=> l Hl; rewrite E3 Hmem Hl.
Qed.

Lemma round_ok offset mem ord : size mem = lsz -> 2 * offset <= lsz -> perm_eq ord (iota 0 lsz) ->
  \sum_(0 <= l < 2 * offset) nth 0 mem l < M ->
  exists mem', [/\ foldM (round_item M offset) mem ord = Ok mem', size mem' = lsz &
    \sum_(0 <= l < offset) nth 0 mem' l = \sum_(0 <= l < 2 * offset) nth 0 mem l].
Proof.
move=> Hm Ho /perm_iota_all[Hu Hmem].
have Esum : \sum_(0 <= l < 2 * offset) nth 0 mem l = \sum_(0 <= l < offset) (nth 0 mem l + nth 0 mem (l + offset)).
  rewrite big_split /= mul2n -addnn (big_cat_nat _ _ _ (leq0n offset)) ?leq_addr //=; congr (_ + _).
  by rewrite -{1}[offset]add0n big_addn addnK.
rewrite Esum => HM.
have [|v k Hk Hko Hs Ek Ej|v k Hk /negbTE Hko|mem' [E1 E2 E3]] :=
  @foldM_slots _ 0 (fun k => k < offset) (round_item M offset) (fun l => nth 0 mem l + nth 0 mem (l + offset)) mem ord Hu.
- by apply/allP => k; rewrite Hmem Hm.
- rewrite /round_item Hko; rewrite Hmem in Hk.
  rewrite (vgetE 0) ?Hs ?Hm //= (vgetE 0) ?Hs ?Hm /=; last by lia.
  rewrite Ek Ej -?leqNgt ?leq_addl //.
  rewrite /iadd ifT /=; first by rewrite (vsetE 0) // Hs Hm.
  move: HM; rewrite (bigD1_seq k) ?mem_index_iota ?iota_uniq //=; lia.
- by rewrite /round_item Hko.
exists mem'; split=> //; first by rewrite E2.
apply: eq_big_nat => l Hl; rewrite E3 Hmem ifT //; lia.
Qed.

Lemma rounds_ok k : lsz = size_ * 2 ^ k -> forall n ords j i mem, j <= k -> j < n ->
  (forall r, perm_eq (ords r) (iota 0 lsz)) -> size mem = lsz ->
  \sum_(0 <= l < size_ * 2 ^ j) nth 0 mem l < M ->
  exists mem', [/\ rounds M size_ n ords i (size_ * 2 ^ j %/ 2) mem = Ok mem', size mem' = lsz &
    \sum_(0 <= l < size_) nth 0 mem' l = \sum_(0 <= l < size_ * 2 ^ j) nth 0 mem l].
Proof.
move=> Ek; elim=> [|n IH] ords j i mem Hj Hn Hord Hm HM //.
case: j Hj Hn HM => [|j] Hj Hn HM.
  rewrite expn0 muln1 in HM *; exists mem; split=> //.
  by rewrite /= leqNgt (_ : size_ %/ 2 < size_) //; lia.
have E2 : size_ * 2 ^ j.+1 = 2 * (size_ * 2 ^ j) by rewrite expnS mulnCA.
have Ediv : size_ * 2 ^ j.+1 %/ 2 = size_ * 2 ^ j by rewrite E2 mulKn.
have Hle : 2 * (size_ * 2 ^ j) <= lsz by rewrite -E2 Ek leq_mul2l leq_exp2l // Hj orbT.
have Hle2 : size_ <= size_ * 2 ^ j by rewrite leq_pmulr // expn_gt0.
rewrite E2 in HM; rewrite Ediv.
have [mem1 [R1 R2 R3]] := round_ok Hm Hle (Hord i) HM.
rewrite [rounds _ _ _ _ _ _ _]/= Hle2 R1 /=.
have [|||mem2 [S1 S2 S3]] := IH ords j i.+1 mem1 _ _ Hord R2; [by lia|by lia|by rewrite R3|].
by exists mem2; split=> //; rewrite S3 R3 E2.
Qed.

Lemma out_ok g mem out ord : g < groups -> size mem = lsz -> size_ <= lsz -> size out = groups * size_ ->
  perm_eq ord (iota 0 lsz) ->
  exists out', [/\ foldM (out_item size_ g mem) out ord = Ok out', size out' = size out,
    forall l, l < size_ -> nth 0 out' (g * size_ + l) = nth 0 mem l &
    forall i, ~~ (g * size_ <= i < g.+1 * size_) -> nth 0 out' i = nth 0 out i].
Proof.
move=> Hg Hm Hsl Ho /perm_iota_all[Hu Hmem].
have Hin l : l < size_ -> g * size_ + l < groups * size_.
  move=> Hl; have : g.+1 * size_ <= groups * size_ by rewrite leq_mul2r Hg orbT.
  by rewrite mulSn; lia.
suff H : forall ord out, uniq ord -> (forall i, i \in ord -> i < lsz) -> size out = groups * size_ ->
  exists out', [/\ foldM (out_item size_ g mem) out ord = Ok out', size out' = size out,
    forall l, l \in ord -> l < size_ -> nth 0 out' (g * size_ + l) = nth 0 mem l &
    forall i, ~~ ((g * size_ <= i < g.+1 * size_) && (i - g * size_ \in ord)) -> nth 0 out' i = nth 0 out i].
  have [|out' [E1 E2 E3 E4]] := H ord out Hu _ Ho; first by move=> i; rewrite Hmem.
  exists out'; split=> // [l Hl|i Hi]; first by apply: E3; rewrite ?Hmem //; lia.
  by apply: E4; rewrite (negbTE Hi).
move=> {}ord {}out {}Hu {}Hmem {}Ho; elim: ord out Hu Hmem Ho => [|k ord IH] out; first by exists out.
case/andP=> Hk Hu Hmem Ho; rewrite foldM_cons {1}/out_item.
have Hmem' i : i \in ord -> i < lsz by move=> Hi; apply: Hmem; rewrite inE Hi orbT.
case: (ltnP k size_) => Hks /=; last first.
  have [out' [E1 E2 E3 E4]] := IH out Hu Hmem' Ho.
  exists out'; split=> // [l|i Hi].
    by rewrite inE => /orP[/eqP ->|Hl]; [lia|exact: E3].
  apply: E4; apply: contraNN Hi => /andP[-> H]; by rewrite inE H orbT.
rewrite (vgetE 0) ?Hm //=; last by lia.
have Hin' : size_ * g + k < size out by rewrite Ho mulnC Hin.
rewrite (vsetE 0) //=.
have Hs : size (set_nth 0 out (size_ * g + k) (nth 0 mem k)) = size out.
  by rewrite size_set_nth; apply/maxn_idPr.
have [out' [E1 E2 E3 E4]] := IH _ Hu Hmem' (etrans Hs Ho).
exists out'; split=> //; first by rewrite E2.
  move=> l; rewrite inE => /orP[/eqP -> _|Hl]; last exact: E3.
  by rewrite E4 ?nth_set_nth /= ?[g * _]mulnC ?eqxx // addKn (negbTE Hk) andbF.
move=> i Hi; rewrite E4; last by apply: contraNN Hi => /andP[-> H]; rewrite inE H orbT.
rewrite nth_set_nth /=; case: eqP => // Ei; case/negP: Hi.
rewrite Ei mulSn [g * size_]mulnC addKn inE eqxx andbT; lia.
Qed.

Lemma group_sum_total : \sum_(0 <= g < groups) group_sum items gsz lsz g = sumn items.
Proof. by rewrite /group_sum -(sum_blocks (strided gsz items)) (strided_total _ gsz_gt0). Qed.

Lemma run_group_ok k mem0 orders out g : lsz = size_ * 2 ^ k -> k < fuel -> g < groups ->
  size (mem0 g) = lsz -> (forall r, perm_eq (orders g r) (iota 0 lsz)) -> size out = groups * size_ ->
  exists out', [/\ run_group M size_ lsz groups items len fuel mem0 orders out g = Ok out', size out' = size out,
    \sum_(0 <= l < size_) nth 0 out' (g * size_ + l) = group_sum items gsz lsz g &
    forall i, ~~ (g * size_ <= i < g.+1 * size_) -> nth 0 out' i = nth 0 out i].
Proof.
move=> Ek Hk Hg Hm Hord Ho; rewrite /run_group.
have [mem [M1 M2 M3]] := init_ok Hg Hm (Hord 0); rewrite M1 [bind (Ok mem) _]/=.
have Esum : \sum_(0 <= l < size_ * 2 ^ k) nth 0 mem l = group_sum items gsz lsz g.
  by rewrite -Ek; apply: eq_big_nat => l /andP[_ Hl]; exact: M3.
have Hle : group_sum items gsz lsz g < M.
  apply: leq_ltn_trans Hsum; rewrite -group_sum_total.
  by rewrite (bigD1_seq g) ?mem_index_iota ?iota_uniq //= leq_addr.
have [|mem1 [R1 R2 R3]] := @rounds_ok k Ek fuel (orders g) k 2 mem (leqnn k) Hk (Hord) M2; first by rewrite Esum.
have -> /= : rounds M size_ fuel (orders g) 2 (lsz %/ 2) mem = Ok mem1 by rewrite Ek.
have Hsl : size_ <= lsz by rewrite Ek leq_pmulr // expn_gt0.
have [out' [E1 E2 E3 E4]] := out_ok Hg R2 Hsl Ho (Hord 1).
exists out'; split=> //; rewrite -Esum -R3.
by apply: eq_big_nat => l /andP[_ Hl]; exact: E3.
Qed.

Lemma reduce_ok k mem0 orders gorder out : lsz = size_ * 2 ^ k -> k < fuel ->
  (forall g, g < groups -> size (mem0 g) = lsz) ->
  (forall g r, g < groups -> perm_eq (orders g r) (iota 0 lsz)) -> perm_eq gorder (iota 0 groups) ->
  size out = groups * size_ ->
  reduce M size_ lsz groups items len fuel mem0 orders gorder out = Ok (sumn items).
Proof.
move=> Ek Hk Hm Hord /perm_iota_all[Hu Hmem] Ho.
suff H : forall gs out, uniq gs -> (forall g, g \in gs -> g < groups) -> size out = groups * size_ ->
  exists out', [/\ foldM (run_group M size_ lsz groups items len fuel mem0 orders) out gs = Ok out',
    size out' = groups * size_,
    forall g, g \in gs -> \sum_(0 <= l < size_) nth 0 out' (g * size_ + l) = group_sum items gsz lsz g &
    forall i, i %/ size_ \notin gs -> nth 0 out' i = nth 0 out i].
  have [|out' [E1 E2 E3 _]] := H gorder out Hu _ Ho; first by move=> g; rewrite Hmem.
  have Es : sumn out' = sumn items.
    rewrite -group_sum_total sumn_nth E2 (sum_blocks (nth 0 out')).
    by apply: eq_big_nat => g /andP[_ Hg]; apply: E3; rewrite Hmem.
  by rewrite /reduce E1 /= host_sumE Es.
elim=> [|g gs IH] out1 Hu1 Hmem1 Ho1; first by exists out1.
case/andP: Hu1 => Hg Hu1; have Hgg : g < groups by apply: Hmem1; rewrite inE eqxx.
have [out2 [E1 E2 E3 E4]] := run_group_ok Ek Hk Hgg (Hm g Hgg) (fun r => Hord g r Hgg) Ho1.
have [|out3 [F1 F2 F3 F4]] := IH out2 Hu1 _ (etrans E2 Ho1).
  by move=> j Hj; apply: Hmem1; rewrite inE Hj orbT.
have Hdiv h l : l < size_ -> (h * size_ + l) %/ size_ = h.
  by move=> Hl; rewrite divnMDl // divn_small // addn0.
exists out3; split=> //; first by rewrite foldM_cons E1.
  move=> h; rewrite inE => /orP[/eqP -> {h}|Hh]; last exact: F3.
  by rewrite -E3; apply: eq_big_nat => l /andP[_ Hl]; rewrite F4 // Hdiv.
move=> i; rewrite inE negb_or => /andP[Hi1 Hi2]; rewrite F4 // E4 //.
apply: contraNN Hi1 => /andP[H1 H2]; apply/eqP.
have -> : i = g * size_ + (i - g * size_) by lia.
by rewrite Hdiv //; move: H2; rewrite mulSn; lia.
Qed.
End Kernel.

(** With the constant as it is shipped the loop of the kernel has no end. *)
Lemma rounds_zero M n ords i offset mem mem' : rounds M 0 n ords i offset mem <> Ok mem'.
Proof.
elim: n ords i offset mem => [|n IH] ords i offset mem //=.
by case: (foldM _ _ _) => //= mem1; exact: IH.
Qed.

Lemma reduce_zero M lsz groups items fuel mem0 orders gorder out s : gorder != [::] ->
  reduce M 0 lsz groups items (size items) fuel mem0 orders gorder out <> Ok s.
Proof.
case: gorder => // g gs _; rewrite /reduce foldM_cons /run_group.
case: (foldM (init_item _ _ _ _ _ _ _) _ _) => //= mem.
case E: (rounds _ _ _ _ _ _ _) => [mem'| | |] //=.
by case: (rounds_zero E).
Qed.

Lemma reduce_sum M size_ lsz groups k items fuel mem0 orders group_order out :
  0 < size_ -> 0 < groups -> lsz = size_ * 2 ^ k ->
  size items + groups * lsz <= M -> sumn items < M -> size items <= fuel -> k < fuel ->
  (forall g, g < groups -> size (mem0 g) = lsz) ->
  (forall g r, g < groups -> perm_eq (orders g r) (iota 0 lsz)) ->
  perm_eq group_order (iota 0 groups) -> size out = groups * size_ ->
  reduce M size_ lsz groups items (size items) fuel mem0 orders group_order out = Ok (sumn items).
Proof.
move=> Hs Hg Ek Hl HM Hf Hk; apply: (@reduce_ok M size_ lsz groups items fuel _ _ _ _ _ _ k) => //.
by rewrite Ek muln_gt0 Hs expn_gt0.
Qed.

Lemma reduce_zero_case fuel : 2 < fuel ->
  reduce 100 0 2 1 [:: 1; 2; 3] 3 fuel (fun=> [:: 0; 0]) (fun _ _ => [:: 0; 1]) [:: 0] [::] = OutOfFuel.
Proof.
have H n i o : o <= 1 -> rounds 100 0 n (fun=> [:: 0; 1]) i 0 [:: 6; 2] = OutOfFuel.
  by elim: n i => [|n IH] i Ho //=; rewrite IH.
by case: fuel => [|[|[|fuel]]] // _; rewrite /reduce /run_group /= (H _ _ 0).
Qed.
