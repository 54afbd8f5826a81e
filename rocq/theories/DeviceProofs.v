(** A thread with an OpenCL device computes what the others compute. *)
Set Warnings "-notation-overridden,-ambiguous-paths".
From mathcomp Require Import all_ssreflect ssralg ssrnum ssrint poly polydiv finalg finfield zify.
From Verif Require Import Res ResFacts FinField Tables TablesSpec TablesProofs BlockIter CurveIter NormalForm EnumProofs
  CurveSpec PolyOrbit Squarefree EnumTheorems Curve PointSpec PointCount CurveProofs PointMath CurveHistory CurveTheorems RamSpec
  OMap Store TwistProofs StoreSpec StoreProofs FilesProofs Text TextSpec Config KeyMath Worker WorkerSpec WorkerProofs
  OpenCL OpenCLProofs Device DeviceSpec.

Set Implicit Arguments.
Unset Strict Implicit.
Unset Printing Implicit Defensive.
Import GRing.Theory.
Local Open Scope ring_scope.

Section Config.
Variables (W S M : nat).
Variable flint : nat -> nat -> flint_field.
Variable is_squarefree : forall p r, seq (ff_field (flint p r)) -> bool.
Variable factor : nat -> nat -> seq nat -> seq (nat * nat).
Hypothesis HMW : (2 * M <= W)%N.
Hypothesis HWS : (W <= S)%N.
Variable c : config.
Hypothesis Hadm : admissible M c.
Hypothesis Hff : flint_fields flint c.
Hypothesis Hfp : flint_polys is_squarefree factor c.

Local Notation p := (g_prime c).
Local Notation r := (g_exponent c).
Local Notation n := (g_count c).
Local Notation gn := (g_genus c).
Local Notation F := (field_of flint c).
Local Notation g := (gen_of flint c).
Local Notation q := #|F|.

Hypothesis Hsmall : (2 * (p ^ r) ^ n <= M)%N.

Let Hp : prime p. Proof. by case: Hadm => /andP[]. Qed.
Let Hpo : odd p. Proof. by case: Hadm => /andP[]. Qed.
Let Hr : (0 < r)%N. Proof. by case: Hadm => _ /and4P[]. Qed.
Let Hgn : (0 < gn)%N. Proof. by case: Hadm => _ /and4P[]. Qed.
Let Hn : (0 < n)%N. Proof. by case: Hadm => _ /and4P[]. Qed.
Let Hpsz : (0 < g_package c)%N. Proof. by case: Hadm => _ /and4P[]. Qed.
Let Hq : q = (p ^ r)%N. Proof. by case: Hff. Qed.
Let Hg : generator g. Proof. by case: Hff => _ []. Qed.
Let Hgen : (2 * gn + 3 < M)%N. Proof. by case: Hadm. Qed.
Let Hp2 : p != 2%N. Proof. by apply: contraTneq Hpo => ->. Qed.

Lemma device_counts dev v cv ts : good_device c dev -> curve_over g p r W cv ->
  (forall t, List.In t ts -> (exists2 j, (0 < j <= n)%N & rt_exponent t = (j * r)%N) /\ valid_call g p r W (CallCount t)) ->
  foldM (device_count W M dev v) cv ts = foldM (count W) cv ts.
Proof.
move=> Hdev; elim: ts cv => [|t ts IH] cv Hc Hts //.
have [[j Hj Ej] Hv] := Hts t (or_introl erefl); have [L [G [[H1 H2 H3 H4 [emb H5]] H6]]] := Hv.
have [D1 D2 D3 D4] := Hdev v j Hj.
have HLM : (2 * #|L| <= M)%N.
  apply: leq_trans Hsmall; rewrite leq_mul2l /= H3 Ej mulnC expnM leq_pexp2l //; first by rewrite expn_gt0 prime_gt0.
  by case/andP: Hj.
have HLW : (2 * #|L| <= W)%N by apply: ltnW; apply: leq_ltn_trans H4; rewrite leq_addr.
rewrite !foldM_cons /device_count Ej D1 (count_device (g := g) Hc H2 H3 HLW HLM H5 H6) ?H3 ?Ej //.
have := call_ok Hc Hv; rewrite /= => ->; rewrite {1 2}/bind.
apply: IH; last by move=> t' Ht'; apply: Hts; right.
by apply: same_over Hc; case: ifP.
Qed.

Lemma device_block_ok : exists boxes N, forall fuel, (N <= fuel)%N -> config_blocks W fuel c = Ok boxes /\
  forall dev b, good_device c dev -> b \in boxes -> device_block W S M is_squarefree factor fuel c dev b = work_block W S is_squarefree factor fuel c b.
Proof.
have Hq1 := card_gt1 F.
have HqW : (2 * q <= W)%N.
  have HM : (M <= W)%N by apply: leq_trans HMW; rewrite leq_pmull.
  apply: leq_trans HM; apply: leq_trans Hsmall; rewrite leq_mul2l /= -Hq -[X in (X <= _)%N]expn1 leq_pexp2l //.
  exact: ltnW.
have [its [boxes [pss [N1 [E1 E2 E3 [Hu Hall] _]]]]] := visited_boxes (g_marked c) Hp2 Hq1 HqW Hgn Hpsz.
have He : enumeration F p W gn (g_marked c) (g_package c) (flatten pss).
  by exists N1 => fuel Hf; rewrite /visited E1 {1}/bind E2 // {1}/bind E3.
have [tables [R1 R2 R3]] := thread_redtables_ok HMW HWS Hadm Hff.
exists boxes, (maxn N1 n.+1) => fuel; rewrite geq_max => /andP[Hf1 Hf2]; split.
  rewrite /config_blocks -Hq E1 {1}/bind; exact: E2.
move=> dev b Hdev Hb; rewrite /device_block /work_block; case: (thread_table _ _ _) => [tbl| | |] //.
rewrite ![bind (Ok tbl) _]/= R1 // ![bind (Ok tables) _]/= (mapM_nth [::] (E3 _ Hf1) Hb) ![bind (Ok _) _]/=.
set vs := nth _ _ _.
have Hvs : {subset vs <= flatten pss}.
  move=> v Hv; apply/flattenP; exists vs => //; apply: mem_nth.
  by rewrite (mapM_size (E3 N1 (leqnn _))) index_mem.
have {Hvs} : forall v, v \in vs -> forall s,
    device_curve W M is_squarefree factor fuel (c := c) dev tbl tables s v =
    work_curve W is_squarefree factor fuel (c := c) tbl tables s v.
  move=> v Hv s; have [H1 H2 H3 H4] := size_poly_of_enum HMW HWS Hadm Hff He (Hvs v Hv).
  rewrite /device_curve /work_curve.
  have -> : mk_curve p r (p ^ r) v = Ok (Curve p r q v [::]).
    rewrite -Hq /mk_curve /zero_index; case/lastP: (v) H2 H3 => [|w x] Hl Hs //.
    by move: Hl; rewrite last_rcons rev_rcons /= => /negbTE->; rewrite /= -rev_rcons revK.
  rewrite ![bind (Ok _) _]/=; case: (has_squarefree_rhs _ _ _) => [sqf| | |] //=; case: sqf => //=.
  rewrite device_counts //.
    split=> //=; last first.
      rewrite H3 /=; apply: leq_trans HMW; apply: leq_trans (leq_ltn_trans H4 Hgen) _; by rewrite leq_pmull.
    by split=> //; [rewrite Hq oddX Hpo orbT|exact: prime_gt1].
  move=> t Ht; split; last by apply: R3; apply: List.in_map.
  have : rt_exponent t \in [seq rt_exponent t | t <- tables].
    by elim: (tables) Ht => [|t' l IH] //= [->|/IH]; rewrite inE ?eqxx // => ->; rewrite orbT.
  rewrite R2 => /mapP[j]; rewrite mem_rev mem_iota add1n ltnS => Hj ->; by exists j.
elim: vs [::] => [|v vs IH] s H //.
rewrite !foldM_cons H ?mem_head //; case: (work_curve _ _ _ _ _ _ _ _) => [s'| | |] //=.
by apply: IH => w Hw; apply: H; rewrite inE Hw orbT.
Qed.

Lemma device_same : exists N bs, forall fuel, (N <= fuel)%N -> config_blocks W fuel c = Ok bs /\
  forall dev b, good_device c dev -> b \in bs ->
    exists s, device_block W S M is_squarefree factor fuel c dev b = Ok s /\
              work_block W S is_squarefree factor fuel c b = Ok s.
Proof.
have [boxes [N H]] := device_block_ok.
have [bs [kns [N' [H1 _ H3 _ _]]]] := config_ok HMW HWS Hadm Hff Hfp.
exists (maxn N N'), boxes => fuel; rewrite geq_max => /andP[HN HN']; have [E1 E2] := H _ HN; split=> // dev b Hdev Hb.
have Hb' : b \in bs by move: E1; rewrite H1 // => -[->].
by exists (foldl register [::] (kns b)); rewrite E2 // H3.
Qed.
End Config.
