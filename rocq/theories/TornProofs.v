(** What is read from a record that was cut, and what remains true of restarts. *)
Set Warnings "-notation-overridden,-ambiguous-paths".
From mathcomp Require Import all_ssreflect ssralg ssrnum ssrint zify.
From Verif Require Import Res ResFacts BlockIter BlockSpec CurveIter OMap OMapFacts OMapPerm Store StoreSpec StoreProofs
  Text TextSpec TextProofs FilesProofs Pool PoolProofs Standalone StandaloneSpec Account StandaloneProofs StandaloneTheorems
  NormalForm EnumProofs Config Worker TornSpec.

Set Implicit Arguments.
Unset Strict Implicit.
Unset Printing Implicit Defensive.

(** ** Cutting *)
Lemma cut_nil b : cut b [::].
Proof. by left; exists 0; rewrite take0. Qed.

Lemma cut_cons x b b' : cut b b' -> cut (x :: b) (x :: b').
Proof.
case=> [[j ->]|[j [u [Hj -> Hu]]]]; first by left; exists j.+1.
by right; exists j.+1, u; split.
Qed.

Lemma value_take i ds : all is_digit ds -> value (take i ds) <= value ds.
Proof.
move=> _; rewrite -{2}(cat_take_drop i ds); elim/last_ind: (drop i ds) => [|l d IH]; first by rewrite cats0.
by rewrite -rcons_cat value_rcons; apply: leq_trans IH _; lia.
Qed.

Lemma read_int_digits M sp ds old : all is_space sp -> all is_digit ds -> ds != [::] -> value ds < M ->
  read_int M (open_text (sp ++ ds)) old = (IStr [::] true false, Some (Posz (value ds))).
Proof.
move=> Hsp Hd Hne Hv; rewrite /read_int /=.
rewrite drop_while_cat //; last by case: ds Hd Hne {Hv} => //= c ds /andP[Hc _] _; move: Hc; rewrite /is_digit /is_space; lia.
case E: ds Hd Hne Hv => [|c l] //= /andP[Hc Hl] _ Hv.
have -> : (c == c_minus) || (c == c_plus) = false by move: Hc; rewrite /is_digit /c_minus /c_plus; lia.
have -> : (c == c_minus) = false by move: Hc; rewrite /is_digit /c_minus; lia.
have E1 := @take_while_cat is_digit (c :: l) [::]; have E2 := @drop_while_cat is_digit (c :: l) [::].
rewrite cats0 in E1 E2; by rewrite E1 ?E2 //= ?Hc ?Hl // Hv.
Qed.

Lemma size_dec x : 0 < size (dec x).
Proof. by have := dec_nonempty x; case: (dec x). Qed.

Lemma torn_bounds M W fuel b sp l u acc i : M <= W -> all is_space sp -> small_bounds M b ->
  size (take i (print_block b)) < fuel ->
  exists2 b', extract_bounds M W fuel (open_text (sp ++ take i (print_block b))) l u acc = Ok (acc ++ b') & cut b b'.
Proof.
move=> HMW; elim: b fuel sp l u acc i => [|[x y] b IH] [|fuel] sp l u acc i Hsp //=.
  by move=> _ _; exists [::]; [rewrite cats0 read_int_end // cats0 | exact: cut_nil].
move=> /andP[/andP[/= Hx Hy] Hb].
rewrite (_ : print_block _ = dec x ++ c_space :: dec y ++ c_space :: print_block b); last first.
  by rewrite /print_block /= -!catA /= -!catA.
rewrite take_cat; case: (ltnP i (size (dec x))) => H1.
  case: (take i (dec x) =P [::]) => [->|/eqP Hne] Hf.
    by exists [::]; [rewrite ?cats0 read_int_end // ?cats0 | exact: cut_nil].
  exists [::]; last exact: cut_nil.
  rewrite read_int_digits //= ?cats0 //; last by apply: leq_ltn_trans (value_take _ (dec_digits x)) _; rewrite value_dec.
  by apply/allP => c /mem_take; apply: (allP (dec_digits x)).
have Hsx := size_dec x; have Hsy := size_dec y.
case: (i - size (dec x)) => [|i1] /=.
  by exists [::]; [rewrite read_int_pos //= !cats0 | exact: cut_nil].
rewrite take_cat; case: (ltnP i1 (size (dec y))) => H2 Hf.
  rewrite read_int_pos //=; case: (take i1 (dec y) =P [::]) => [->|/eqP Hne].
    by exists [::]; [rewrite cats0 (@read_int_end _ [:: c_space]) | exact: cut_nil].
  have Hv : value (take i1 (dec y)) <= y by rewrite -{2}(value_dec y) value_take ?dec_digits.
  exists [:: (x, value (take i1 (dec y)))].
    rewrite (@read_int_digits _ [:: c_space]) //=; last by apply: leq_ltn_trans Hv _.
      case: fuel Hf {IH} => [|fuel _]; first by rewrite size_cat; lia.
      rewrite /= !to_unsigned_pos ?cats1 //; try exact: leq_trans HMW.
      by apply: leq_ltn_trans Hv _; apply: leq_trans HMW.
    by apply/allP => c /mem_take; apply: (allP (dec_digits y)).
  by right; exists 0, (value (take i1 (dec y))); split.
rewrite read_int_pos //=; case: (i1 - size (dec y)) Hf => [|i2] /= Hf.
  exists [:: (x, y)]; last by left; exists 1; rewrite /= take0.
  rewrite cats0 -[dec y]cats0 (@read_int_pos _ [:: c_space]) //= .
  case: fuel Hf {IH} => [|fuel _]; first by rewrite size_cat; lia.
  by rewrite /= !to_unsigned_pos ?cats1 //; exact: leq_trans HMW.
have [|b' E1 E2] := IH fuel [:: c_space] (Some (Posz x)) (Some (Posz y)) (rcons acc (x, y)) i2 isT Hb.
  by move: Hf; rewrite size_cat /= size_cat /=; lia.
exists ((x, y) :: b'); last exact: cut_cons.
by rewrite (@read_int_pos _ [:: c_space]) //= !to_unsigned_pos ?E1 ?cat_rcons //; exact: leq_trans HMW.
Qed.

Lemma torn_blocks M W fuel r acc n : M <= W -> all (small_bounds M) r -> size r < fuel ->
  exists m x, extract_blocks M W fuel (open_text (take n (print_record r))) acc =
      Ok (foldl (os_insert block_lt) acc (rcons (take m r) x)) /\
    (x = [::] \/ m < size r /\ cut (nth [::] r m) x).
Proof.
move=> HMW; elim: r fuel acc n => [|b r IH] [|fuel] acc n //=.
  by move=> _ _; exists 0, [::]; split; [case: fuel | left].
move=> /andP[Hb Hr] Hf.
have -> : print_record (b :: r) = print_block b ++ c_nl :: print_record r by rewrite /print_record /= -catA.
have Hcut i : exists m x, (stb <- extract_block M W (open_text (take i (print_block b)));;
       extract_blocks M W fuel stb.1 (os_insert block_lt acc stb.2)) =
      Ok (foldl (os_insert block_lt) acc (rcons (take m (b :: r)) x)) /\
    (x = [::] \/ m < size (b :: r) /\ cut (nth [::] (b :: r) m) x).
  have [b' E1 E2] := @torn_bounds M W (size (take i (print_block b))).+1 b [::] None None [::] i HMW isT Hb (ltnSn _).
  exists 0, b'; split; last by right.
  rewrite /extract_block getline_last; last by apply/allP => c /mem_take; apply: (allP (block_neq b)).
  by rewrite cat0s in E1; rewrite E1 /=; case: fuel Hf.
rewrite take_cat; case: ltnP => H1; first exact: Hcut.
case: (n - size (print_block b)) => [|n'] /=.
  by rewrite cats0 -[X in open_text X](take_size (print_block b)); exact: Hcut.
rewrite extract_blockE //=.
have [m [x [E1 E2]]] := IH fuel (os_insert block_lt acc b) n' Hr Hf.
by exists m.+1, x.
Qed.

Lemma extract_blocks_mono M W f f' st r r' : f <= f' -> extract_blocks M W f st r = Ok r' ->
  extract_blocks M W f' st r = Ok r'.
Proof.
elim: f f' st r => [|f IH] f' st r.
  by move=> _; case: f' => [|f'] /=; case: (i_eof st).
case: f' => [|f'] // Hf /=; case: (i_eof st) => // H.
have [stb H1 H2] := bind_Ok_inv H; by rewrite H1 /=; apply: IH.
Qed.

(** What is read from a record that was cut. *)
Lemma torn_record_read M W r r' : M <= W -> all (small_bounds M) r -> torn_read M W r r' ->
  exists m x, [/\ {subset take m r <= r'}, {subset r' <= x :: take m r} &
    x = [::] \/ m < size r /\ cut (nth [::] r m) x].
Proof.
move=> HMW Hr [n [fuel]]; rewrite /extract_record /peek /=.
case E: (take n (print_record r)) => [|c t] /=; last rewrite -E.
  by case: fuel => [|fuel] /= [<-]; exists 0, [::]; (split; [move=> b; rewrite take0| |left]).
have [m [x [E1 E2]]] := @torn_blocks M W (maxn fuel (size r).+1) r [::] n HMW Hr (leq_maxr _ _).
move/(extract_blocks_mono (leq_maxl fuel (size r).+1)); rewrite E1 => -[<-].
have [_ H] := @mem_foldl_insert (rcons (take m r) x) [::] isT.
exists m, x; split=> // b; rewrite H /= mem_rcons ?inE //.
by move=> ->; rewrite orbT.
Qed.

(** ** Restarts *)
Section Restart.
Variable contrib : nat -> block -> store.
Hypothesis Hmap : forall c b, is_map (contrib c b).
Variables M W : nat.
Hypothesis HMW : M <= W.
Variable jobs : seq job.
Hypothesis Hjobs : jobs_wf jobs.
Hypothesis Hsmall : forall j, j \in jobs -> all (small_bounds M) j.2.
Hypothesis Hsep : forall j, j \in jobs -> separate j.2.

(** What the files hold of a job: [L] are the blocks whose results are in the tables. *)
Definition covers (n : nat) (fs : seq file) (j : job) (L : seq block) : Prop :=
  [/\ add_up contrib fs j.1.1 j.1.2 L, {subset L <= j.2},
      forall b, b \in j.2 -> b \in recorded fs j.1.1 -> b \in L &
      forall b, count_mem b L <= n + (b \in recorded fs j.1.1)].

Lemma tables_cat fs fs' d : tables (fs ++ fs') d = tables fs d ++ tables fs' d.
Proof. by rewrite /tables filter_cat pmap_cat. Qed.

Lemma add_up_cat fs fs' d c L L' : add_up contrib fs d c L -> add_up contrib fs' d c L' ->
  add_up contrib (fs ++ fs') d c (L ++ L').
Proof. by move=> H1 H2 k; rewrite tables_cat !map_cat !sum_opt_cat H1 H2. Qed.

Lemma covers_run n fs kinds acts s j L : run contrib (start kinds fs (main_program jobs)) acts = Ok s ->
  j \in jobs -> covers n fs j L ->
  exists2 N, files s = fs ++ N & covers n (files s) j (L ++ recorded N j.1.1) /\
    {subset recorded N j.1.1 <= remaining fs j}.
Proof.
move=> Hrun Hj [H1 H2 H3 H4].
have [N EN HN] := consistent_ok Hmap Hjobs Hrun; have [N' EN' [Hu Hs]] := new_records Hmap Hjobs Hrun Hj.
have E : N' = N by move: EN'; rewrite EN => /(congr1 (drop (size fs))); rewrite !drop_size_cat.
subst N'; exists N => //; split=> //; rewrite EN; split.
- apply: add_up_cat => //; apply: add_up_recorded => f r Hf Hd Hr.
  have [j' Hj' [Hd' _ _ Hsum]] := HN f r Hf Hr.
  by have -> : j = j' by apply: (job_unique Hjobs); rewrite // -Hd.
- move=> b; rewrite mem_cat => /orP[/H2//|/Hs]; by rewrite mem_filter => /andP[].
- move=> b Hb; rewrite recorded_cat !mem_cat => /orP[/H3-> //|->]; by rewrite orbT.
move=> b; rewrite count_cat recorded_cat mem_cat (count_uniq_mem b Hu).
case Hb: (b \in recorded N j.1.1); last by rewrite orbF addn0.
have := Hs b Hb; rewrite mem_filter => /andP[/negbTE Hn _].
by have := H4 b; rewrite Hn orbT addn0 => H; rewrite leq_add2r.
Qed.

Lemma complete_rcons fs f r : complete_last (rcons fs f) r = rcons fs (File (f_dir f) (f_store f) (Some r)).
Proof. by elim: fs => [|x fs IH] //=; rewrite IH; case: fs {IH}. Qed.

Lemma covers_torn n fs kinds acts s k r r' j L : run contrib (start kinds fs (main_program jobs)) acts = Ok s ->
  s_pc s = PWriteRecord k r -> torn_read M W r r' -> j \in jobs -> covers n fs j L ->
  exists L', covers n.+1 (complete_last (files s) r') j L'.
Proof.
move=> Hrun Hpc Htorn Hj Hcov.
have Hrun1 : run contrib (start kinds fs (main_program jobs)) (rcons acts (Main false)) =
    Ok (goto (with_files s (complete_last (files s) r)) (PAfter k)).
  by rewrite -cats1 /run foldM_cat -/(run _ _ _) Hrun /= /main_step Hpc.
have [N [past [d [c [P [rest [fut I]]]]]]] := reached Hmap Hjobs Hrun.
have := i_flight I; rewrite /flight Hpc => -[N' [st [EN _ _]]].
have [N1 EN1 [[H1 H2 H3 H4] H5]] := covers_run Hrun1 Hj Hcov.
have EF x : complete_last (files s) x = fs ++ rcons N' (File d st (Some x)).
  by rewrite (i_files I) EN -rcons_cat complete_rcons rcons_cat.
have E1 : N1 = rcons N' (File d st (Some r)).
  by move: EN1; rewrite [files _]/= EF => /(congr1 (drop (size fs))); rewrite !drop_size_cat.
have EF' : files (goto (with_files s (complete_last (files s) r)) (PAfter k)) = fs ++ N1 by rewrite [LHS]/= EF E1.
rewrite EF' in H1 H3 H4; rewrite EF.
have Hrec x : recorded (rcons N' (File d st (Some x))) j.1.1 = recorded N' j.1.1 ++ (if d == j.1.1 then x else [::]).
  by rewrite -cats1 recorded_cat /recorded /=; case: ifP; rewrite //= cats0.
exists (L ++ recorded N1 j.1.1); split=> //.
- move=> x; rewrite -(H1 x); congr sum_opt; congr map.
  by rewrite E1 -!cats1 !tables_cat /tables /=; case: ifP.
- move=> b Hb; rewrite recorded_cat Hrec mem_cat => /orP[Hin|].
    by apply: H3; rewrite // recorded_cat mem_cat Hin.
  rewrite mem_cat => /orP[Hin|].
    by rewrite mem_cat E1 Hrec mem_cat Hin /= orbT.
  case Hd: (d == j.1.1) => // Hin.
  have Hr b' : b' \in r -> b' \in j.2.
    move=> Hb'; have : b' \in recorded N1 j.1.1 by rewrite E1 Hrec Hd mem_cat Hb' orbT.
    by move/H5; rewrite mem_filter => /andP[].
  have Hsm : all (small_bounds M) r by apply/allP => b' /Hr; apply: (allP (Hsmall Hj)).
  have [m [x [_ T2 T3]]] := torn_record_read HMW Hsm Htorn.
  suff Hbr : b \in r by rewrite mem_cat E1 Hrec Hd mem_cat Hbr !orbT.
  have := T2 b Hin; rewrite inE => /orP[/eqP Ebx|]; last exact: mem_take.
  have Hne : b != [::].
    by apply: contraTneq Hb => ->; have /and3P[_ _ /allP/(_ j Hj)/andP[]] := Hjobs.
  case: T3 => [Ex|[Hm Hcut]]; first by rewrite Ebx Ex in Hne.
  by rewrite (Hsep Hj (Hr _ (mem_nth [::] Hm)) Hb) ?mem_nth // Ebx.
move=> b; have [_ _ _ H0] := Hcov; rewrite count_cat.
have Hu : uniq (recorded N1 j.1.1).
  have [N2 EN2 [Hu _]] := new_records Hmap Hjobs Hrun1 Hj.
  by have -> : N1 = N2 by move: EN2; rewrite EN1 => /(congr1 (drop (size fs))); rewrite !drop_size_cat.
have := H0 b; rewrite (count_uniq_mem b Hu) recorded_cat mem_cat.
case Hb: (b \in recorded fs j.1.1) => /=; last by case: (b \in _); lia.
have -> : b \in recorded N1 j.1.1 = false.
  by apply/negP => /H5; rewrite mem_filter Hb.
by lia.
Qed.

Lemma torn_history_ok n fs j : torn_history contrib M W jobs n fs -> j \in jobs -> exists L, covers n fs j L.
Proof.
move=> H Hj; elim: H => [|{}n {}fs kinds acts s _ [L IH] Hrun|{}n {}fs kinds acts s k r r' _ [L IH] Hrun Hpc Ht].
- by exists [::]; split.
- by have [N _ [H _]] := covers_run Hrun Hj IH; exists (L ++ recorded N j.1.1).
- exact: covers_torn Hrun Hpc Ht Hj IH.
Qed.

Lemma torn_restart_ok n fs kinds acts s j : torn_history contrib M W jobs n fs ->
  run contrib (start kinds fs (main_program jobs)) acts = Ok s -> s_pc s = PDone -> j \in jobs ->
  exists L, [/\ add_up contrib (files s) j.1.1 j.1.2 L, L =i j.2 & forall b, count_mem b L <= n.+1].
Proof.
move=> Hh Hrun Hpc Hj; have [L Hcov] := torn_history_ok Hh Hj; have [_ _ H0 _] := Hcov.
have [N EN [[H1 H2 H3 H4] H5]] := covers_run Hrun Hj Hcov.
exists (L ++ recorded N j.1.1); split=> //.
  move=> b; apply/idP/idP => [/H2//|Hb]; apply: H3 => //.
  rewrite EN recorded_cat mem_cat; case Hf: (b \in recorded fs j.1.1) => //=.
  have [J1 [J2 EJ]] : exists J1 J2, jobs = J1 ++ j :: J2 by case: (splitPr Hj) => J1 J2; exists J1, J2.
  have [N' EN' [_ _ HN']] := left_ok Hmap Hjobs Hrun EJ (or_introl Hpc).
  have -> : N = N' by move: EN'; rewrite EN => /(congr1 (drop (size fs))); rewrite !drop_size_cat.
  by rewrite (perm_mem HN') mem_filter Hf Hb.
by move=> b; have := H4 b; case: (b \in _); lia.
Qed.
End Restart.

(** ** The blocks of a configuration *)
Lemma enum_boxes W p q genus marked psz : p != 2 -> 1 < q -> 2 * q <= W -> 0 < genus -> 0 < psz ->
  exists its boxes N,
    [/\ mk_citer p q genus marked psz = Ok its,
        forall fuel, N <= fuel -> ci_iterate W (ci_as_block W) fuel its = Ok boxes,
        forall v, count (fun b => in_box b v) boxes = has (fun d => nfpos p q d v) (degrees genus marked) &
        all (fun b => 0 < box_volume b) boxes].
Proof.
move=> Hp Hq HW Hg Hpsz.
have [|its [boxes [E1 E2 E3 E4]]] :=
  @boxes_of_args W psz (flatten [seq args_degree p q d | d <- degrees genus marked]).
  move=> a /flatten_mapP[d Hd Ha]; apply: (args_degree_ok Hq HW Hpsz _ Ha).
  exact: degrees_ge Hd.
exists its, boxes, (size boxes); split=> //; last by apply: sub_all E4 => b /andP[].
  by rewrite /mk_citer (negbTE Hp); have -> : (genus == 0) = false by lia.
move=> v; rewrite E3 big_flatten /= big_map.
rewrite big_seq (eq_bigr (fun d => nfpos p q d v : nat)); last first.
  by move=> d Hd; rewrite (args_degree_desc p Hq HW Hpsz) //; apply: degrees_ge Hd.
rewrite -big_seq; case: (boolP (has _ _)) => [/hasP[d Hd Hnf]|/hasPn Hn].
  apply: (@sum_sel _ _ _ d) => //; first exact: iota_uniq.
  move=> y Hy /andP[/validP[Hs _] _]; move: Hnf => /andP[/validP[Hs' _] _]; lia.
by apply: sum_none.
Qed.

Lemma in_boxP b v : reflect (size v = size b /\
    forall i, i < size b -> (nth (0, 0) b i).1 <= nth 0 v i < (nth (0, 0) b i).2) (in_box b v).
Proof.
rewrite /in_box all2E; apply: (iffP andP) => [[/eqP Hs /(all_nthP ((0, 0), 0)) H]|[Hs H]].
  split=> // i Hi; have := H i; rewrite size_zip -Hs minnn nth_zip //=; exact.
split; first exact/eqP.
by apply/(all_nthP ((0, 0), 0)) => i; rewrite size_zip -Hs minnn nth_zip //= => Hi; apply: H; rewrite -Hs.
Qed.

Lemma low_corner b : 0 < box_volume b -> in_box b [seq lu.1 | lu <- b].
Proof. by rewrite volume_pos /in_box; elim: b => [|lu b IH] //= /andP[H /IH ->]; rewrite leqnn H. Qed.

(** A cut block with an element: the block itself has that element too if it is not longer, and otherwise the last
    range starts where the one of the block does. *)
Lemma cut_in_box b b' v : cut b b' -> in_box b' v -> b' <> [::] -> size b' <= size b /\
  (size b' = size b -> in_box b v) /\ (nth (0, 0) b (size b').-1).1 <= nth 0 v (size b').-1.
Proof.
move=> Hc /in_boxP[Hs H] Hne; have Hpos : 0 < size b' by case: (b') Hne.
have Hnth : size b' <= size b /\ forall i, i < size b' ->
    (nth (0, 0) b i).1 = (nth (0, 0) b' i).1 /\ (nth (0, 0) b' i).2 <= (nth (0, 0) b i).2.
  case: Hc => [[j Ej]|[j [u [Hj Ej Hu]]]].
    split; first by rewrite Ej size_take; case: ltnP => // /ltnW.
    move=> i Hi; have Hij : i < j.
      by move: Hi; rewrite Ej size_take; case: (ltnP j (size b)) => // H1 H2; exact: leq_trans H2 H1.
    by rewrite Ej !nth_take.
  split; first by rewrite Ej size_rcons size_takel // ltnW.
  have Hjs : size (take j b) = j by rewrite size_takel // ltnW.
  move=> i; rewrite Ej size_rcons Hjs ltnS leq_eqVlt => /orP[/eqP->|Hi].
    by rewrite nth_rcons Hjs ltnn eqxx.
  by rewrite nth_rcons Hjs Hi nth_take.
case: Hnth => Hle Hnth; split=> //; split.
  move=> Hsz; apply/in_boxP; split=> [|i Hi]; first by rewrite Hs.
  by rewrite -Hsz in Hi; have [-> Hu] := Hnth i Hi; have /andP[-> Hl] := H i Hi; apply: leq_trans Hl Hu.
have Hi : (size b').-1 < size b' by rewrite prednK.
by have [-> _] := Hnth _ Hi; have /andP[] := H _ Hi.
Qed.

Lemma config_separate W fuel c bs : g_prime c != 2 -> 1 < g_prime c ^ g_exponent c ->
  2 * g_prime c ^ g_exponent c <= W -> 0 < g_genus c -> 0 < g_package c ->
  g_marked c || ~~ (g_prime c %| 2 * g_genus c + 2) ->
  config_blocks W fuel c = Ok bs -> separate bs.
Proof.
set p := g_prime c; set q := p ^ g_exponent c => Hp Hq HW Hg Hpsz Hm.
have [its [boxes [N [E1 E2 E3 E4]]]] := enum_boxes (g_marked c) Hp Hq HW Hg Hpsz.
rewrite /config_blocks -/p -/q E1 /= => H.
have {H}E : bs = boxes.
  have := ci_iterate_mono (leq_maxl fuel N) H; rewrite E2 ?leq_maxr // => -[<-] //.
subst bs => b b' Hb Hb' Hc; apply/eqP/negPn/negP => Hne.
have Hv := allP E4 b Hb; have Hv' := allP E4 b' Hb'.
have Hd v b0 : b0 \in boxes -> in_box b0 v -> exists2 d, d \in degrees (g_genus c) (g_marked c) & nfpos p q d v.
  move=> H0 Hin; apply/hasP; have : 0 < count (fun b => in_box b v) boxes by rewrite -has_count; apply/hasP; exists b0.
  by rewrite E3; case: (has _ _).
pose v := [seq lu.2.-1 | lu <- b']; have Hin := top_corner Hv'; rewrite -/v in Hin.
have [d' Hd' Hnf'] := Hd v b' Hb' Hin.
have [d Hdd Hnf] := Hd _ b Hb (low_corner Hv).
have Es' : size b' = d'.+1 by move: Hnf' => /andP[/andP[/eqP]]; rewrite size_map.
have Es : size b = d.+1 by move: Hnf => /andP[/andP[/eqP]]; rewrite size_map.
have [|Hle [Hsame Hlow]] := cut_in_box Hc Hin; first by move=> E0; rewrite E0 in Es'.
have Hdlt : d' < d.
  rewrite ltn_neqAle -ltnS -Es -Es' Hle andbT; apply/eqP => E.
  have {Hsame}Hb2 : in_box b v by apply: Hsame; rewrite Es Es' E.
  have : 1 < count (fun b => in_box b v) boxes.
    have Hu : uniq [:: b; b'] by rewrite /= inE eq_sym Hne.
    have Hsub : {subset [:: b; b'] <= [seq x <- boxes | in_box x v]}.
      by move=> x; rewrite !inE mem_filter => /orP[] /eqP->; apply/andP.
    by rewrite -size_filter; exact: (uniq_leq_size Hu Hsub).
  by rewrite E3; case: (has _ _).
have [Hmk [Ed' Ed]] : g_marked c = false /\ d' = 2 * g_genus c + 1 /\ d = 2 * g_genus c + 2.
  move: Hd' Hdd Hdlt; clear; rewrite /degrees !mem_iota; case: (g_marked c); lia.
rewrite Hmk /= -Ed in Hm.
have Hz : zpos q [seq lu.1 | lu <- b] d.-1.
  move: Hnf; rewrite /nfpos /nf => /and3P[_ _]; case: ifP => [_ /andP[]//|_].
  by rewrite -/(dvdn p d) (negbTE Hm) => /and3P[].
move: Hlow; rewrite Es' /= => Hlow.
have E' : d' = d.-1 by lia.
move: Hz; rewrite /zpos (nth_map (0, 0)); last by rewrite Es; lia.
rewrite -E' => /eqP Hz; move: Hlow; rewrite Hz => Hlow.
move: Hnf' => /andP[/validP[_ Hlt] /andP[/negP Hnz _]]; apply: Hnz.
by have := Hlt d' (leqnn _); rewrite /zpos; lia.
Qed.
