(** Proofs about curve.cc: evaluation, counting, conversion. *)
Set Warnings "-notation-overridden,-ambiguous-paths".
From mathcomp Require Import all_ssreflect ssralg poly polydiv finalg zify.
From Verif Require Import Res ResFacts FinField Tables TablesSpec TablesProofs Curve CurveSpec.
From Verif Require Import PointSpec PointCount.

Set Implicit Arguments.
Unset Strict Implicit.
Unset Printing Implicit Defensive.
Import GRing.Theory.
Local Open Scope ring_scope.

Lemma elt_eq0 (F : finFieldType) (g : F) i : generator g -> (elt_of g i == 0) = (i == #|F|.-1).
Proof. by move=> Hg; rewrite /elt_of; case: (i == _); rewrite ?eqxx // (negbTE (genX_neq0 Hg _)). Qed.

Lemma foldM_cons S T (f : S -> T -> res S) s x l :
  foldM f s (x :: l) = bind (f s x) (fun s' => foldM f s' l).
Proof. by []. Qed.

Section Values.
Variables (L : finFieldType) (G : L).
Local Notation Q := #|L|.
Hypothesis HG : generator G.

Lemma perm_nonzero a : perm_eq (0 :: [seq G ^+ x | x <- iota a Q.-1]) (enum L).
Proof.
have Hu : uniq (0 :: [seq G ^+ x | x <- iota a Q.-1]).
  rewrite /=; apply/andP; split.
    by apply/mapP => -[x _ E]; have := genX_neq0 HG x; rewrite -E eqxx.
  rewrite map_inj_in_uniq ?iota_uniq // => x y; rewrite !mem_iota => Hx Hy.
  move/eqP; rewrite (genX_eq HG).
  have [x' Ex] : exists x', x = (a + x')%N by exists (x - a)%N; slia.
  have [y' Ey] : exists y', y = (a + y')%N by exists (y - a)%N; slia.
  rewrite Ex Ey eqn_modDl => /eqP.
  by rewrite !modn_small; [move=> ->|slia|slia].
apply: uniq_perm => //; first exact: enum_uniq.
have [||_ H //] := uniq_min_size Hu (s2 := enum L); first by move=> x _; rewrite mem_enum.
by rewrite -cardE /= size_map size_iota; have := card_gt1 L; slia.
Qed.

(** One step of the accumulation, for the point [x]. *)
Definition upd W (f : {poly L}) (pts : nat * nat) (x : L) : nat * nat :=
  if f.[x] == 0 then (pts.1, uadd W pts.2 1)
  else if sqnz f.[x] then (uadd W pts.1 2, pts.2) else pts.

Lemma upd_all W (f : {poly L}) (s : seq L) : odd Q -> (2 * Q < W)%N -> perm_eq s (enum L) ->
  foldl (upd W f) (0%N, 0%N) s =
  ((2 * #|[set x | sqnz f.[x]%R]|)%N, #|[set x | root f x]|).
Proof.
move=> Hodd HW Hs.
have Hsz : size s = Q by rewrite (perm_size Hs) cardE.
rewrite (@tally_fold L Hodd _ W (upd W f) (fun x => f.[x])) ?add0n ?Hsz //; try slia.
have H (P : pred L) : seq.count P s = #|[set x | P x]|.
  by rewrite (permP Hs) cardsE cardE size_filter enumT.
by rewrite (H (fun x => sqnz f.[x])) (H (fun x => f.[x] == 0)).
Qed.

(** The whole result, with the points at infinity. *)
Lemma finish W (f : {poly L}) d (pts : nat * nat) : odd Q -> (2 * Q + 2 < W)%N -> f != 0 ->
  d = (size f).-1 ->
  pts = ((2 * #|[set x | sqnz f.[x]%R]|)%N, #|[set x | root f x]|) ->
  (if odd d then (pts.1, uadd W pts.2 1) else if sqnz (lead_coef f) then (uadd W pts.1 2, pts.2) else pts)
  = true_counts f.
Proof.
move=> Hodd HW Hf -> ->; rewrite (true_countsE Hodd Hf) /unramified /ramified_points /=.
have H1 : (#|[set x | sqnz f.[x]%R]| <= Q)%N by exact: max_card.
have H2 : (#|[set x | root f x]| <= Q)%N by exact: max_card.
move: H1 H2; move: #|_| #|_| => A B H1 H2.
by case: odd => /=; [|case: sqnz => /=]; rewrite /uadd ?modn_small; try slia; congr pair; slia.
Qed.
End Values.

Section Eval.
Variables (L : finFieldType) (G : L) (W : nat) (inc : seq nat).
Local Notation Q := #|L|.
Hypothesis HG : generator G.
Hypothesis Hinc : increments G inc.
Hypothesis HW : (2 * Q <= W)%N.
Local Notation red := (exponent_reduction_table Q).
Local Notation el := (elt_of G).

Lemma redE i : (i < 2 * Q.-1)%N -> vget red i = Ok (i %% Q.-1)%N.
Proof. by move=> Hi; have [_ ->] := exponent_table_ok (pred_q_gt0 L). Qed.

Lemma el_small i : (i < Q.-1)%N -> el i = G ^+ i.
Proof. by move=> Hi; rewrite /elt_of ltn_eqF. Qed.

Lemma cpu_step_ok x f xpw cf : (x <= Q.-1)%N -> (f < Q)%N -> (cf < Q)%N -> (xpw < 2 * Q.-1)%N ->
  exists f' xpw', [/\ cpu_step W Q.-1 red inc x (f, xpw) cf = Ok (f', xpw'),
    (f' < Q)%N, (xpw' < 2 * Q.-1)%N, el f' = el f + el cf * G ^+ xpw &
    G ^+ xpw' = G ^+ xpw * G ^+ x].
Proof.
move=> Hx Hf Hcf Hxpw; have Hq := pred_q_gt0 L; have Hq1 := card_gt1 L.
rewrite /cpu_step redE //=.
set z := (xpw %% Q.-1)%N; have Hz : (z < Q.-1)%N by rewrite ltn_mod.
have Ez : G ^+ z = G ^+ xpw by rewrite genX_mod.
have Hadd a b : (a < Q.-1)%N -> (b < Q.-1)%N -> uadd W a b = (a + b)%N.
  by move=> Ha Hb; rewrite /uadd modn_small //; slia.
have Hxz : uadd W z x = (z + x)%N by rewrite /uadd modn_small //; slia.
have Hzx : (z + x < 2 * Q.-1)%N by slia.
case: eqP => [Ecf|/eqP Ncf].
  exists f, (z + x)%N; split=> //=; first by rewrite Hxz.
    by rewrite Ecf /elt_of eqxx mul0r addr0.
  by rewrite exprD Ez.
have Hcf' : (cf < Q.-1)%N by slia.
have Hsum : (cf + z < 2 * Q.-1)%N by slia.
rewrite Hadd // redE //.
set m := ((cf + z) %% Q.-1)%N; have Hm : (m < Q.-1)%N by rewrite ltn_mod.
have Em : G ^+ m = el cf * G ^+ xpw by rewrite genX_mod // exprD Ez el_small.
case: eqP => [Ef|/eqP Nf] /=.
  exists m, (z + x)%N; split=> //=; first by rewrite Hxz.
  - by slia.
  - by rewrite Ef {2}/elt_of eqxx add0r el_small.
  by rewrite exprD Ez.
have Hf' : (f < Q.-1)%N by slia.
have [lo [hi [Elh Hlo Hhi Hle Esum]]] : exists lo hi,
    [/\ (if (m <= f)%N then (m, f) else (f, m)) = (lo, hi), (lo < Q.-1)%N, (hi < Q.-1)%N,
        (lo <= hi)%N & G ^+ lo + G ^+ hi = el f + el cf * G ^+ xpw].
  rewrite (el_small Hf') -Em; case: leqP => Hmf; [exists m, f|exists f, m].
    by split; [|exact: Hm|exact: Hf'|exact: Hmf|exact: addrC].
  by split; [|exact: Hf'|exact: Hm|exact: ltnW|].
rewrite Elh.
have Hd : (hi - lo < Q)%N by slia.
have [Hsz Hi] := Hinc; rewrite (vgetE 0%N) ?Hsz //=.
have [Hi1 Hi2] := Hi _ Hd.
have Eel : el (hi - lo)%N = G ^+ (hi - lo) by apply: el_small; slia.
case: eqP => [E|/eqP N] /=.
  exists Q.-1, (z + x)%N; split=> //=; first by rewrite Hxz.
  - by slia.
  - rewrite -Esum {1}/elt_of eqxx; apply/esym/eqP.
    have -> : G ^+ hi = G ^+ lo * G ^+ (hi - lo) by rewrite -exprD subnKC.
    by rewrite -{1}[G ^+ lo]mulr1 -mulrDr -Eel -Hi2 E /elt_of eqxx mulr0.
  by rewrite exprD Ez.
have Hi' : (nth 0 inc (hi - lo) < Q.-1)%N by slia.
rewrite Hadd // redE /=; last by slia.
exists ((lo + nth 0%N inc (hi - lo)) %% Q.-1)%N, (z + x)%N; split=> //=; first by rewrite Hxz.
- by have := ltn_pmod (lo + nth 0 inc (hi - lo))%N Hq; slia.
- rewrite -Esum el_small ?ltn_mod // genX_mod // exprD -(el_small Hi') Hi2 Eel mulrDr mulr1 -exprD.
  by rewrite subnKC.
by rewrite exprD Ez.
Qed.

Lemma cpu_loop_ok x cs f xpw : (x <= Q.-1)%N -> (f < Q)%N -> (xpw < 2 * Q.-1)%N ->
  all (fun c => (c < Q)%N) cs ->
  exists f' xpw', [/\ foldM (cpu_step W Q.-1 red inc x) (f, xpw) cs = Ok (f', xpw'), (f' < Q)%N &
    el f' = el f + G ^+ xpw * (Poly [seq el c | c <- cs]).[G ^+ x]].
Proof.
move=> Hx; elim: cs f xpw => [|c cs IH] f xpw Hf Hxpw.
  by exists f, xpw; rewrite /= horner0 mulr0 addr0.
rewrite foldM_cons map_cons => /andP[Hc Hcs]; have [f1 [x1 [-> Hf1 Hx1 E1 E2]]] := cpu_step_ok Hx Hf Hc Hxpw.
have [f' [xpw' [E0 Hf' E]]] := IH f1 x1 Hf1 Hx1 Hcs.
exists f', xpw'; split=> //; rewrite E E1 E2 [Poly _]/= horner_cons mulrDr -addrA; congr (_ + _).
by rewrite addrC (mulrC (el c)) [_.[_] * _]mulrC mulrA.
Qed.

Lemma cpu_eval_ok x cs : (x <= Q.-1)%N -> cs != [::] -> all (fun c => (c < Q)%N) cs ->
  exists f, [/\ cpu_eval W Q.-1 red inc cs x = Ok f, (f < Q)%N &
                el f = (Poly [seq el c | c <- cs]).[G ^+ x]].
Proof.
case: cs => // c cs Hx _ /= /andP[Hc Hcs]; rewrite /cpu_eval /=.
have Hx2 : (x < 2 * Q.-1)%N by have := pred_q_gt0 L; slia.
have [f' [xpw' [-> Hf' E]]] := cpu_loop_ok Hx Hc Hx2 Hcs.
by exists f'; split=> //; rewrite E horner_cons addrC mulrC.
Qed.

Hypothesis Hodd : odd Q.

Lemma tallyE f pts : (f < Q)%N -> tally W Q.-1 pts f =
  if el f == 0 then (pts.1, uadd W pts.2 1)
  else if sqnz (el f) then (uadd W pts.1 2, pts.2) else pts.
Proof. by move=> Hf; rewrite /tally elt_eq0 // sqnz_elt //; case: eqP. Qed.

Lemma count_cpu_ok p k cs : cs != [::] -> all (fun c => (c < Q)%N) cs ->
  count_cpu W (RedTable p k Q red inc) cs (0%N, 0%N) =
  Ok (foldl (upd W (Poly [seq el c | c <- cs])) (0%N, 0%N) [seq G ^+ x | x <- iota 1 Q.-1]).
Proof.
move=> Hne Hcs; rewrite /count_cpu /=.
set P := Poly _; rewrite (@foldM_Ok _ _ _ (fun pts x => upd W P pts (G ^+ x))); last first.
  move=> pts x; rewrite mem_iota => Hx.
  have Hx' : (x <= Q.-1)%N by slia.
  have [f [-> Hf E]] := cpu_eval_ok Hx' Hne Hcs.
  by rewrite /= tallyE // E.
by congr Ok; elim: (iota _ _) (0%N, 0%N) => //= x s IH a; rewrite IH.
Qed.

End Eval.

(** ** The genus and the point at infinity *)

Lemma usubE W a b : (b <= a)%N -> (a < W)%N -> usub W a b = (a - b)%N.
Proof.
move=> Hb Ha; rewrite /usub (@modn_small b) ?(leq_ltn_trans Hb) //.
have -> : (a + (W - b) = (a - b) + W)%N by lia.
by rewrite modnDr modn_small //; lia.
Qed.

Lemma genusE W c : (0 < degree c)%N -> (size (c_coeffs c) < W)%N ->
  degree c = (2 * genus W c + (if odd (degree c) then 1 else 2))%N.
Proof.
rewrite /genus /degree; move: (size (c_coeffs c)) => n Hd HW.
rewrite modn2; case Ho: (odd n.-1) => /=; rewrite usubE ?divn2; lia.
Qed.

Lemma at_infinityE W c sq pts : (0 < degree c)%N -> (size (c_coeffs c) < W)%N ->
  at_infinity W c sq pts =
  if odd (degree c) then (pts.1, uadd W pts.2 1) else if sq then (uadd W pts.1 2, pts.2) else pts.
Proof.
move=> Hd HW; have E := genusE Hd HW; rewrite /at_infinity.
have Hd' : (degree c < W.-1)%N by move: HW Hd; rewrite /degree; lia.
have -> : uadd W (umul W 2 (genus W c)) 2 = (2 * genus W c + 2)%N.
  by rewrite /umul /uadd !modn_small //; move: E Hd'; case: odd; lia.
move: E; case: odd => E; first by rewrite (_ : (_ < _)%N) //; lia.
by rewrite (_ : (_ < _)%N = false) //; lia.
Qed.

(** ** Conversion *)
Section Convert.
Variables (F L : finFieldType) (emb : {rmorphism F -> L}) (g : F) (G : L).
Local Notation q := #|F|.
Local Notation Q := #|L|.
Hypothesis Hg : generator g.
Hypothesis HG : compatible emb g G.
Variables (p r k W : nat).
Hypothesis Hp : (1 < p)%N.
Hypothesis Hr : (0 < r)%N.
Hypothesis Hq : q = (p ^ r)%N.
Hypothesis HQ : Q = (p ^ k)%N.
Hypothesis Hrk : (r %| k)%N.
Hypothesis HW : (Q <= W)%N.

Lemma pred_dvd : (q.-1 %| Q.-1)%N.
Proof.
case/dvdnP: Hrk => m E; rewrite Hq HQ E mulnC expnM.
by rewrite [X in (_ %| X)%N]predn_exp dvdn_mulr.
Qed.

Lemma factor_mul : (Q.-1 %/ q.-1 * q.-1)%N = Q.-1.
Proof. exact: divnK pred_dvd. Qed.

Lemma embed_elt x : (x < q)%N ->
  let y := if x != q.-1 then (Q.-1 %/ q.-1 * x)%N else Q.-1 in
  (y < Q)%N /\ elt_of G y = emb (elt_of g x).
Proof.
move=> Hx /=; have Hq1 := pred_q_gt0 F; have HQ1 := pred_q_gt0 L; have HG' := card_gt1 L.
rewrite /elt_of; case: (x =P q.-1) => [E|N] /=; first by rewrite eqxx rmorph0; split=> //; slia.
have Hf := factor_mul; have Hlt : (Q.-1 %/ q.-1 * x < Q.-1)%N.
  rewrite -[X in (_ < X)%N]Hf ltn_pmul2l; first by slia.
  by rewrite lt0n; apply: contraTneq HQ1 => E; rewrite -Hf E mul0n.
rewrite (ltn_eqF Hlt) rmorphX (proj2 HG) exprM; split=> //; slia.
Qed.

Lemma convert_ok v pts t : rt_prime t = p -> rt_exponent t = k -> rt_power t = Q ->
  all (fun x => (x < q)%N) v ->
  exists cs, [/\ convert_coeffs W (Curve p r q v pts) t = Ok cs, size cs = size v,
    all (fun x => (x < Q)%N) cs &
    [seq elt_of G x | x <- cs] = [seq emb (elt_of g x) | x <- v]].
Proof.
move=> Ep Ek EQ /allP Hv; rewrite /convert_coeffs Ep Ek EQ /= eqxx /=.
rewrite (eqP Hrk) eqxx /=; case: eqP => [Erk|Nrk].
  have E : Q = q by rewrite HQ Hq Erk.
  exists v; split=> //; first by apply/allP => x /Hv; rewrite E.
  apply/eq_in_map => x /Hv Hx; have [_] := embed_elt Hx.
  by rewrite E divnn (pred_q_gt0 F) mul1n => <-; case: eqP => [<-|//].
eexists; split; first reflexivity.
- by rewrite size_map.
- apply/allP => y /mapP[x /Hv Hx ->]; have [H1 _] := embed_elt Hx; move: H1.
  case: ifP => // Hn H1; rewrite /umul modn_small //; exact: leq_trans H1 HW.
rewrite -map_comp; apply/eq_in_map => x /Hv Hx; have [H1 H2] := embed_elt Hx.
rewrite -H2 /=; move: H1; case: ifP => // _ H1; rewrite /umul modn_small //; exact: leq_trans H1 HW.
Qed.

Lemma Poly_embed v : Poly [seq emb (elt_of g x) | x <- v] = map_poly emb (poly_of g v).
Proof.
rewrite /poly_of; elim: v => [|x v IH] /=; first by rewrite polyC0 rmorph0.
by rewrite !cons_poly_def IH rmorphD rmorphM /= map_polyX map_polyC.
Qed.

Section Count.
Variables (v : seq nat).
Hypothesis Hv : all (fun x => (x < q)%N) v.
Hypothesis Hlast : last 0%N v != q.-1.
Hypothesis Hsz : (1 < size v)%N.
Hypothesis Hodd : odd Q.
Hypothesis HW2 : (2 * Q + 2 < W)%N.
Hypothesis HWv : (size v < W)%N.
Let f : {poly L} := map_poly emb (poly_of g v).

Lemma nth_elt_lt i : (i < size v)%N -> (nth 0%N v i < q)%N.
Proof. by move=> Hi; apply: (allP Hv); rewrite mem_nth. Qed.

Lemma size_pv : size (poly_of g v) = size v.
Proof.
rewrite /poly_of (@PolyK _ 0) ?size_map //.
case: v Hlast Hsz => // x s; rewrite map_cons /= last_map => H _.
by rewrite elt_eq0.
Qed.

Lemma size_f : size f = size v.
Proof. by rewrite /f size_map_poly size_pv. Qed.

Lemma f_neq0 : f != 0.
Proof. by rewrite -size_poly_eq0 size_f; case: (v) Hsz. Qed.

Lemma lead_f : lead_coef f = emb (elt_of g (last 0%N v)).
Proof.
rewrite /f lead_coef_map lead_coefE size_pv /poly_of coef_Poly (nth_map 0%N) ?nth_last //.
by case: (v) Hsz.
Qed.

Lemma count_ok pts t : table_of p k G t -> sm_find pts k = None ->
  count W (Curve p r q v pts) t = Ok (set_points (Curve p r q v pts) k (true_counts f)).
Proof.
move=> [Ep Ek EQ Ered Hinc] Hnew; have HG1 := proj1 HG.
rewrite /count Ep Ek /= eqxx /has_counted /= Hnew /=.
have [cs [-> Hs Hcs Emap]] := convert_ok pts Ep Ek EQ Hv.
have Ef : Poly [seq elt_of G c | c <- cs] = f by rewrite Emap Poly_embed.
have Hne : cs != [::] by rewrite -size_eq0 Hs; case: (v) Hsz.
have -> : t = RedTable p k Q (exponent_reduction_table Q) (rt_inc t).
  by move: Ep Ek EQ Ered; case: (t) => /= ? ? ? ? ? -> -> -> ->.
have HW' : (2 * Q <= W)%N by slia.
have Ecpu := @count_cpu_ok _ _ _ _ HG1 Hinc HW' Hodd p k _ Hne Hcs.
rewrite {1}/bind Ecpu Ef {1}/bind (vgetE 0%N) ?Hs; last by slia.
have Hc0 : (nth 0%N cs 0 < Q)%N by apply: (allP Hcs); rewrite mem_nth // Hs; slia.
have E0 : elt_of G (nth 0%N cs 0) = f.[0].
  by rewrite horner_coef0 -Ef coef_Poly (nth_map 0%N) // Hs; slia.
rewrite {1}/bind [rt_power _]/= (tallyE W HG1 Hodd) // E0 (vgetE 0%N) ?size_rev ?Hs; last by slia.
rewrite -/(upd W f _ 0).
have Hlc : elt_of G (nth 0%N (rev cs) 0) = lead_coef f.
  rewrite nth_rev ?Hs; last by slia.
  by rewrite lead_coefE size_f subn1 -Ef coef_Poly (nth_map 0%N) // Hs; slia.
have Hbk : (nth 0%N (rev cs) 0 < Q)%N.
  by apply: (allP Hcs); rewrite -mem_rev mem_nth // size_rev Hs; slia.
have Esq : ~~ odd (nth 0%N (rev cs) 0) = sqnz (lead_coef f).
  rewrite -Hlc (sqnz_elt Hodd HG1) // -(elt_eq0 _ HG1) Hlc lead_coef_eq0.
  by rewrite (negbTE f_neq0).
rewrite {1}/bind Esq at_infinityE; [|by rewrite /degree /=; slia|by []].
congr (Ok (set_points _ _ _)); apply: (finish HG1 Hodd HW2 f_neq0); first by rewrite size_f.
have HW2' : (2 * Q < W)%N by slia.
rewrite -foldl_rcons (upd_all HG1 f Hodd HW2') //.
by rewrite perm_rcons; exact: (perm_nonzero HG1 1).
Qed.

(** ** The naive counting functions *)
Lemma naive_evalE (cs : seq L) x : naive_eval cs x = (Poly cs).[x].
Proof.
rewrite /naive_eval.
have H a y : (foldl (fun s : L * L => fun c => (s.1 + c * s.2, s.2 * x)) (a, y) cs).1
   = a + y * (Poly cs).[x].
  elim: cs a y => [|c cs IH] a y /=; first by rewrite horner0 mulr0 addr0.
  rewrite IH horner_cons mulrDr -addrA; congr (_ + _).
  by rewrite addrC (mulrC c) [_.[_] * _]mulrC mulrA.
by rewrite H add0r mul1r.
Qed.

Lemma naive_coeffsE : naive_coeffs G Q.-1 q.-1 v = [seq emb (elt_of g x) | x <- v].
Proof.
rewrite /naive_coeffs; apply/eq_in_map => x Hx; rewrite /elt_of.
by case: eqP => _; rewrite ?rmorph0 // rmorphX (proj2 HG).
Qed.

Lemma naive_ok pts : sm_find pts k = None -> (0 < k)%N ->
  count_naive G W (Curve p r q v pts) k = Ok (set_points (Curve p r q v pts) k (true_counts f)).
Proof.
move=> Hnew Hk; have HG1 := proj1 HG; have HQ1 := card_gt1 L.
rewrite /count_naive leqn0 (gtn_eqF Hk) /= (eqP Hrk) eqxx /= /has_counted /= Hnew /=.
rewrite -HQ naive_coeffsE.
set cs := [seq _ | _ <- v].
have Ef : Poly cs = f by rewrite Poly_embed.
have Hstep pts' x : naive_update W Q.-1 cs pts' x = upd W f pts' x.
  rewrite /naive_update naive_evalE Ef /upd; case: eqP => // /eqP N.
  by rewrite /naive_square (euler Hodd HG1).
have Hiter n pts' : iter n (fun s : (nat * nat) * L => (naive_update W Q.-1 cs s.1 s.2, s.2 * G)) (pts', 1)
   = (foldl (upd W f) pts' [seq G ^+ i | i <- iota 0 n], G ^+ n).
  elim: n => [|n IH]; first by rewrite expr0.
  have -> : iota 0 n.+1 = rcons (iota 0 n) n by rewrite -addn1 iotaD cats1.
  by rewrite iterS IH map_rcons foldl_rcons -exprSr Hstep.
rewrite /naive_loop Hiter Hstep /= (vgetE 0) ?size_rev ?size_map; last by slia.
rewrite /=.
have -> : nth 0 (rev cs) 0 = lead_coef f.
  rewrite nth_rev ?size_map; last by slia.
  by rewrite lead_coefE size_f subn1 -Ef coef_Poly.
rewrite /naive_square (euler Hodd HG1) ?lead_coef_eq0 ?f_neq0 // at_infinityE //; last by rewrite /degree /=; slia.
congr (Ok (set_points _ _ _)); apply: (finish HG1 Hodd HW2 f_neq0); first by rewrite size_f.
have := @upd_all _ _ HG1 W f (0 :: [seq G ^+ i | i <- iota 0 Q.-1]) Hodd _ (perm_nonzero HG1 0).
by apply; slia.
Qed.

End Count.
End Convert.
