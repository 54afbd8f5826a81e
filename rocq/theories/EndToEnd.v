(** From configurations to the merged counts: the whole program. *)
Set Warnings "-notation-overridden,-ambiguous-paths".
From mathcomp Require Import all_ssreflect ssralg ssrnum ssrint poly polydiv finalg finfield zify.
From Verif Require Import Res ResFacts FinField OMap OMapFacts CurveSpec PolyOrbit CurveProofs PointSpec RamSpec TwistProofs
  EnumTheorems CurveTheorems
  Store StoreSpec StoreProofs Text TextSpec TextProofs Files FilesSpec FilesProofs Pool Standalone
  StandaloneSpec Account StandaloneProofs StandaloneTheorems Config KeyMath Worker WorkerSpec WorkerProofs.

Set Implicit Arguments.
Unset Strict Implicit.
Unset Printing Implicit Defensive.

(** ** Files of a result directory *)
Definition pairs (fs : seq file) (d : nat) : seq (seq block * store) :=
  pmap (fun f => if f_record f is Some r then Some (r, f_store f) else None) [seq f <- fs | f_dir f == d].

Lemma tablesE fs d : tables fs d = [seq x.2 | x <- pairs fs d].
Proof.
rewrite /tables /pairs; elim: [seq f <- fs | _] => [|f l IH] //=; rewrite IH.
by case: (f_record f).
Qed.

Lemma recordedE fs d : recorded fs d = flatten [seq x.1 | x <- pairs fs d].
Proof.
rewrite /recorded /pairs; elim: [seq f <- fs | _] => [|f l IH] //=; rewrite IH.
by case: (f_record f).
Qed.

Lemma holds_store d svs id t : uniq (names d) -> plain d -> holds d (names d) svs ->
  ~~ is_regular d (id, record_ext) ->
  let d' := write_file d (id, store_ext) t in
  [/\ uniq (names d'), plain d' & holds d' (names d') svs].
Proof.
move=> Hun Hpl Hh Hid d'; have [_ Hu Hp Hsub Hall] := Hh.
have Hl f : lookup d' f = if f == (id, store_ext) then Some (Regular t) else lookup d f.
  by apply: lookup_write_plain.
split; [exact: uniq_write|exact: plain_write|split=> //; first exact: uniq_write].
- move=> sv Hsv; have [H1 H2] := Hp _ Hsv; have Hne := holds_stem Hh Hid Hsv.
  by rewrite /has_pair !Hl !xpair_eqE (negbTE Hne).
- by move=> sv Hsv; rewrite mem_write Hsub // orbT.
move=> f Hf Ef; rewrite /is_regular Hl; case: (f =P _) => [E|_].
  by move: Ef; rewrite E.
move: Hf; rewrite mem_write; case/orP => [/eqP E|Hf]; first by move: Ef; rewrite E.
exact: Hall.
Qed.

Lemma replay_ok dir fs ids cuts d svs d' : uniq (names d) -> plain d -> holds d (names d) svs ->
  replay dir fs ids cuts d = Ok d' ->
  exists svs', [/\ uniq (names d'), plain d', holds d' (names d') svs' &
    perm_eq [seq sv.2 | sv <- svs'] ([seq sv.2 | sv <- svs] ++ pairs fs dir)].
Proof.
elim: fs d svs => [|f fs IH] d svs Hun Hpl Hh /=.
  by case=> <-; exists svs; rewrite cats0.
rewrite /pairs /= -/(pairs fs dir); case: (f_dir f == dir) => [|/= H]; last exact: IH Hh H.
move=> H; have [d1 H1 H2] := bind_Ok_inv H; have [id Hid [E]] := bind_Ok_inv H1.
have [_ Hr _] := new_stemP Hid; move: E; rewrite /=; case: (f_record f) => [r|] E.
  have [K1 K2 K3] := holds_pair r (f_store f) Hun Hpl Hh Hr.
  rewrite E in K1 K2 K3; have [svs' [L1 L2 L3 L4]] := IH _ _ K1 K2 K3 H2.
  exists svs'; split=> //; apply: (perm_trans L4).
  by rewrite /= -/(pairs fs dir) perm_sym -cat_rcons -cat_cons; apply: perm_cat; rewrite // perm_rcons.
have [K1 K2 K3] := holds_store (take (cuts (size fs)) (print_store (f_store f))) Hun Hpl Hh Hr.
by rewrite E in K1 K2 K3; exact: IH K3 H2.
Qed.

Lemma fresh_holds d : fresh d -> holds d (names d) [::].
Proof. by case=> H1 H2 H3; split=> // f /H3/negP H /eqP. Qed.

Lemma holds_perm d l l' svs : perm_eq l l' -> holds d l' svs -> holds d l svs.
Proof.
move=> Hp [H1 H2 H3 H4 H5]; split=> //; first by rewrite (perm_uniq Hp).
  by move=> sv /H4; rewrite (perm_mem Hp).
by move=> f; rewrite (perm_mem Hp); exact: H5.
Qed.

(** The record the program reads is the one the model of the pool starts with. *)
Lemma read_records_saves fs dir svs : perm_eq [seq sv.2 | sv <- svs] (pairs fs dir) ->
  blocks_of_saves svs (read_records fs dir).
Proof.
move=> Hp; have H b := @os_foldl (flatten [seq file_blocks f | f <- fs & f_dir f == dir]) [::] b isT.
split=> [|b]; first by have [] := H [::].
have Hh (P : pred (seq block * store)) : has (fun sv : saved => P sv.2) svs = has P (pairs fs dir).
  by rewrite -(eq_has_r (perm_mem Hp)) has_map.
have [_ ->] := H b; rewrite /= (Hh (fun x => b \in x.1)) (Hh (fun x => x.1 != [::])) /pairs.
elim: [seq f <- fs | f_dir f == dir] => [|f l IH] /=; first by rewrite andbF.
rewrite mem_cat IH /file_blocks; case: (f_record f) => [[|x r]|] //=.
by rewrite inE andbT; case: (b == [::]); rewrite ?orbT // ?orbF orbA.
Qed.

(** ** Keys and numbers of points *)
Section Points.
Import GRing.Theory.
Local Open Scope ring_scope.
Variable F : finFieldType.

Lemma point_keyE (L : nat -> finFieldType) (emb : forall j, {rmorphism F -> L j}) n (f : {poly F}) :
  odd #|F| -> tower F L -> f != 0 -> point_key emb n f = base_key n f.
Proof.
move=> Ho HL Hf; congr pair; apply: eq_mkseq => j.
by rewrite (base_offsetE (emb j) Ho Hf (HL j)) HL.
Qed.

Lemma brute_forceE (L : nat -> finFieldType) (emb : forall j, {rmorphism F -> L j}) n genus marked k :
  odd #|F| -> tower F L ->
  brute_force (point_key emb n) genus marked k = brute_force (F := F) (base_key n) genus marked k.
Proof.
move=> Ho HL; apply: eq_bigr => d _; apply: eq_in_count => f; rewrite mem_polys => /eqP Hs.
by rewrite point_keyE // -size_poly_gt0 Hs.
Qed.
End Points.

Lemma half_le m n : 2 * m <= n -> m <= n. Proof. lia. Qed.

(** ** The program *)
Section Program.
Variables (W S M : nat).
Variable flint : nat -> nat -> flint_field.
Variable is_squarefree : forall p r, seq (ff_field (flint p r)) -> bool.
Variable factor : nat -> nat -> seq nat -> seq (nat * nat).
Hypothesis HMW : 2 * M <= W.
Hypothesis HWS : W <= S.

Definition expected (c : config) (k : key) : option nat :=
  let N := brute_force (F := field_of flint c) (base_key (g_count c)) (g_genus c) (g_marked c) k in
  if N == 0 then None else Some N.

Definition computes (fuel : nat) (c : config) (bs : seq block) (kns : block -> seq (key * nat)) : Prop :=
  config_blocks W fuel c = Ok bs /\
  forall b, b \in bs -> work_block W S is_squarefree factor fuel c b = Ok (foldl register [::] (kns b)).

Definition right (c : config) (bs : seq block) (kns : block -> seq (key * nat)) : Prop :=
  [/\ [/\ uniq bs, [::] \notin bs & all (small_bounds M) bs],
      forall b kn, b \in bs -> kn \in kns b ->
        [/\ printable M kn.1, printable M (twist kn.1) & size kn.1.2 = g_count c] &
      forall k, credit (flatten [seq kns b | b <- bs]) k = expected c k].

Variable cs : seq config.
Hypothesis Hcs : forall i, i < size cs ->
  [/\ admissible M (nth c0 cs i), flint_fields flint (nth c0 cs i) & flint_polys is_squarefree factor (nth c0 cs i)].

Lemma configs_ok : exists (bs : nat -> seq block) (kns : nat -> block -> seq (key * nat)) N,
  (forall i, i < size cs -> right (nth c0 cs i) (bs i) (kns i)) /\
  forall fuel, N <= fuel -> forall i, i < size cs -> computes fuel (nth c0 cs i) (bs i) (kns i).
Proof.
elim: cs Hcs => [|c l IH] H; first by exists (fun _ => [::]), (fun _ _ => [::]), 0.
have [|bs [kns [N [H1 H2]]]] := IH; first by move=> i Hi; exact: (H i.+1).
have [K1 K2 K3] := H 0 isT.
have [b [kn [N' [L1 L2 L3 L4 L5]]]] := config_ok HMW HWS K1 K2 K3.
exists (fun i => if i is i'.+1 then bs i' else b), (fun i => if i is i'.+1 then kns i' else kn), (maxn N N').
split=> [[|i] Hi|fuel]; [by split|exact: H1|].
rewrite geq_max => /andP[HN HN'] [|i] Hi; last exact: H2.
by split; [exact: L1|exact: L3].
Qed.

Lemma zip_iota (l : seq config) m : zip (iota m (size l)) l = [seq (i, nth c0 l (i - m)) | i <- iota m (size l)].
Proof.
elim: l m => [|c l IH] m //=; rewrite subnn IH; congr cons.
apply/eq_in_map => i; rewrite mem_iota => /andP[Hi _].
by rewrite (_ : i - m = (i - m.+1).+1) //; lia.
Qed.

Lemma mapM_map (A B C : Type) (f : B -> res C) (h : A -> B) l : mapM f [seq h x | x <- l] = mapM (f \o h) l.
Proof. by elim: l => [|x l IH] //=; rewrite IH. Qed.

Lemma Ok_inj T (x y : T) : Ok x = Ok y -> x = y. Proof. by case. Qed.

Lemma register_map s kn : is_map s -> is_map (register s kn).
Proof.
by case: kn => k n Hs; rewrite /register; case: st_find => [m|]; [|case: ifP => _]; rewrite ?/st_add !is_map_set.
Qed.

Lemma work_curve_map fuel (c : config) (tbl : seq (ff_field (flint (g_prime c) (g_exponent c)))) ts s v s' : is_map s ->
  work_curve W (flint := flint) is_squarefree factor fuel (c := c) tbl ts s v = Ok s' -> is_map s'.
Proof.
move=> Hs; rewrite /work_curve => H; have [cv _ H1] := bind_Ok_inv H; have [sq _] := bind_Ok_inv H1.
case: sq; rewrite [~~ _]/= => H2; last by case: H2 => <-.
have [cv' _ H3] := bind_Ok_inv H2; have [k _ H4] := bind_Ok_inv H3; have [m _ H5] := bind_Ok_inv H4.
by rewrite -(Ok_inj H5); exact: register_map.
Qed.

Lemma work_block_map fuel c b s : work_block W S is_squarefree factor fuel c b = Ok s -> is_map s.
Proof.
rewrite /work_block => H; have [tbl _ H1] := bind_Ok_inv H; have [ts _ H2] := bind_Ok_inv H1.
have [vs _] := bind_Ok_inv H2; have : is_map [::] by [].
elim: vs [::] => [|v vs IH] st Hst /= H3; first by case: H3 => <-.
have [st' H4 H5] := bind_Ok_inv H3; exact: IH (work_curve_map Hst H4) H5.
Qed.

Lemma contribution_map fuel i b : is_map (contribution W S is_squarefree factor fuel cs i b).
Proof.
rewrite /contribution; case E: (work_block _ _ _ _ _ _ _) => [s| | |] //; exact: work_block_map E.
Qed.

Variable dir : seq char -> nat.
Hypothesis Hdir : uniq [seq dir (g_path c) | c <- cs].

Lemma program_ok : exists (bs : nat -> seq block) (kns : nat -> block -> seq (key * nat)) N,
  let jobs := [seq (dir (g_path (nth c0 cs i)), i, bs i) | i <- iota 0 (size cs)] in
  [/\ jobs_wf jobs, forall i, i < size cs -> right (nth c0 cs i) (bs i) (kns i) &
      forall fuel, N <= fuel -> program_jobs W fuel dir cs = Ok jobs /\
        forall i, i < size cs -> computes fuel (nth c0 cs i) (bs i) (kns i)].
Proof.
have [bs [kns [N [H1 H2]]]] := configs_ok; exists bs, kns, N; split=> //.
  apply/and3P; split.
  - rewrite -map_comp; rewrite (_ : [seq _ | i <- _] = [seq dir (g_path c) | c <- cs]) //.
    apply: (@eq_from_nth _ 0); rewrite !size_map size_iota // => i Hi.
    by rewrite (nth_map 0) ?size_iota // nth_iota // (nth_map c0).
  - by rewrite -map_comp map_id_in ?iota_uniq.
  apply/allP => j /mapP[i]; rewrite mem_iota => /andP[_ Hi] -> /=.
  by have [[-> -> _] _ _] := H1 _ Hi.
move=> fuel Hf; split; last exact: H2.
rewrite /program_jobs zip_iota mapM_map; apply: mapM_Ok => i; rewrite mem_iota => /andP[_ Hi].
by rewrite [_ i]/= subn0; have [-> _] := H2 _ Hf _ Hi.
Qed.

Lemma contributionE fuel i bs kns b : computes fuel (nth c0 cs i) bs kns -> b \in bs ->
  contribution W S is_squarefree factor fuel cs i b = foldl register [::] (kns b).
Proof. by case=> _ H Hb; rewrite /contribution -/c0 H. Qed.

(** The result directory of one configuration after a complete run. *)
Section Run.
Variables (fuel : nat) (jobs : seq job) (i : nat) (bs : seq block) (kns : block -> seq (key * nat)).
Let c := nth c0 cs i.
Let contrib := contribution W S is_squarefree factor fuel cs.
Let j : job := (dir (g_path c), i, bs).
Hypothesis Hjobs : jobs_wf jobs.
Hypothesis Hj : j \in jobs.
Hypothesis Hright : right c bs kns.
Hypothesis Hcomp : computes fuel c bs kns.

Lemma contrib_find b k : b \in bs -> st_find (contrib i b) k = credit (kns b) k.
Proof. by move=> Hb; rewrite /contrib (contributionE Hcomp Hb); have [_ ->] := register_all (kns b). Qed.

Lemma saves_ok fs d svs : consistent contrib jobs fs -> {subset recorded fs (dir (g_path c)) <= bs} ->
  d = dir (g_path c) -> perm_eq [seq sv.2 | sv <- svs] (pairs fs d) -> all (well_saved M) svs.
Proof.
move=> H1 H3 -> Hp.
apply/allP => sv Hsv; have : sv.2 \in pairs fs (dir (g_path c)) by rewrite -(perm_mem Hp) map_f.
case: sv Hsv => id [r st] _ /= Hin.
have [f [Hf Hd Hr]] : exists f, [/\ List.In f fs, f_dir f = dir (g_path c) & f_record f = Some r /\ f_store f = st].
  move: Hin; rewrite /pairs; elim: (fs) => [|f l IH] //=; case: eqP => Hd /=.
    case Er: (f_record f) => [r'|] /=; last by move/IH => [f' [? ? ?]]; exists f'; split=> //; right.
    rewrite inE => /orP[/eqP[-> ->]|]; first by exists f; split=> //; left.
    by move/IH => [f' [? ? ?]]; exists f'; split=> //; right.
  by move/IH => [f' [? ? ?]]; exists f'; split=> //; right.
have Hsub : {subset r <= bs}.
  move=> b Hb; apply: H3; rewrite recordedE; apply/flattenP; exists r => //; exact: (map_f (fun x => x.1) Hin).
have [Hr1 Hr2] := Hr; have [Hm Hs] := H1 _ _ _ Hf Hr1 Hj Hd; rewrite Hr2 in Hm Hs.
have [[_ _ Hsm] Hpr _] := Hright.
apply/and3P; split=> //=; first by apply/allP => b /Hsub; exact: (allP Hsm).
apply/allP => -[k m] Hk /=.
have : isSome (st_find st k).
  rewrite /st_find (om_find_keys key_total) //; exact: (map_f (fun x => x.1) Hk).
rewrite Hs sum_opt_some => /hasP[o /mapP[b Hb ->]].
rewrite contrib_find; last exact: Hsub.
rewrite /credit; case: ifP => // /hasP[kn Hkn /orP[]/eqP <- _]; by have [] := Hpr _ _ (Hsub _ Hb) Hkn.
Qed.

Lemma saves_expected fs svs T : add_up contrib fs (dir (g_path c)) i bs ->
  perm_eq [seq sv.2 | sv <- svs] (pairs fs (dir (g_path c))) -> sum_of_saves svs T -> forall k, st_find T k = expected c k.
Proof.
move=> L2 K4 [_ HT] k; rewrite HT; have [_ _ <-] := Hright.
rewrite credit_flatten -map_comp.
rewrite (_ : [seq _ | b <- bs] = [seq st_find (contrib i b) k | b <- bs]); last first.
  by apply/eq_in_map => b Hb /=; rewrite contrib_find.
rewrite -L2 tablesE -!map_comp; apply: sum_opt_perm.
by rewrite (map_comp (fun x => st_find x.2 k) (fun sv : saved => sv.2)); apply: perm_map.
Qed.

Lemma merged_ok fs d0 ids cuts d listing : consistent contrib jobs fs ->
  perm_eq (recorded fs (dir (g_path c))) bs -> add_up contrib fs (dir (g_path c)) i bs ->
  fresh d0 -> replay (dir (g_path c)) fs ids cuts d0 = Ok d -> perm_eq listing (names d) ->
  exists T R N, [/\ is_map T, forall k, st_find T k = expected c k,
    forall b, b != [::] -> (b \in R) = (b \in bs) &
    forall fuel', N <= fuel' -> merge M W fuel' d listing = Ok (Some (print_store T, print_record R))].
Proof.
move=> Hc L1 L2 Hd0 Hrep Hl.
have [Hun Hpl _] := Hd0; have [svs [K1 K2 K3 K4]] := replay_ok Hun Hpl (fresh_holds Hd0) Hrep.
have Hsub : {subset recorded fs (dir (g_path c)) <= bs} by move=> b; rewrite (perm_mem L1).
have Hws := saves_ok Hc Hsub erefl K4; have [N HN] := short_exists svs.
have Hho := holds_perm Hl K3; have HMW' := half_le HMW.
have [R [T [E HT HR]]] := merge_ok HMW' Hho Hws (HN N (leqnn _)).
exists T, R, N; split.
- by case: HT.
- exact: saves_expected L2 K4 HT.
- move=> b Hb; case: HR => _ ->; rewrite (negbTE Hb) /= orbF -(perm_mem L1) recordedE.
  rewrite -(has_map (fun sv : saved => sv.2) (fun x => b \in x.1)) (eq_has_r (perm_mem K4)).
  apply/hasP/flattenP => [[x Hx Hbx]|[r /mapP[x Hx ->] Hbx]]; last by exists x.
  by exists x.1 => //; exact: map_f.
move=> fuel' Hf; have [R' [T' [-> HT' HR']]] := merge_ok HMW' Hho Hws (HN _ Hf).
by rewrite (sum_unique HT' HT) (blocks_unique HR' HR).
Qed.
End Run.
End Program.

(** ** Statements *)
Section Statements.
Variables (W S M : nat).
Variable flint : nat -> nat -> flint_field.
Variable is_squarefree : forall p r, seq (ff_field (flint p r)) -> bool.
Variable factor : nat -> nat -> seq nat -> seq (nat * nat).
Hypothesis HMW : 2 * M <= W.
Hypothesis HWS : W <= S.

Lemma odd_field c : admissible M c -> flint_fields flint c -> odd #|field_of flint c|.
Proof.
by case=> /andP[_ Ho] /andP[Hr _] _ _ [-> _]; rewrite oddX Ho orbT.
Qed.

Lemma end_to_end (cs : seq config) (dir : seq char -> nat) :
  (forall i, i < size cs ->
     [/\ admissible M (nth c0 cs i), flint_fields flint (nth c0 cs i) & flint_polys is_squarefree factor (nth c0 cs i)]) ->
  uniq [seq dir (g_path c) | c <- cs] ->
  exists jobs N, forall fuel, N <= fuel ->
  let contrib := contribution W S is_squarefree factor fuel cs in
  [/\ program_jobs W fuel dir cs = Ok jobs, size jobs = size cs,
      forall j b, j \in jobs -> b \in j.2 ->
        exists s, work_block W S is_squarefree factor fuel (nth c0 cs j.1.2) b = Ok s &
      forall fs kinds acts s, history contrib jobs fs ->
        run contrib (start kinds fs (main_program jobs)) acts = Ok s -> s_pc s = PDone ->
      forall i, i < size cs -> let c := nth c0 cs i in
      forall d0 ids cuts d listing, fresh d0 -> replay (dir (g_path c)) (files s) ids cuts d0 = Ok d ->
        perm_eq listing (names d) ->
      exists T R N', [/\ is_map T,
        forall fuel', N' <= fuel' -> merge M W fuel' d listing = Ok (Some (print_store T, print_record R)) &
        forall (L : nat -> finFieldType) (emb : forall j, {rmorphism field_of flint c -> L j}),
        tower (field_of flint c) L ->
        forall k, st_find T k =
          let n := brute_force (point_key emb (g_count c)) (g_genus c) (g_marked c) k in
          if n == 0 then None else Some n]].
Proof.
move=> Hcs Hdir; have [bs [kns [N [H1 H2 H3]]]] := program_ok HMW HWS Hcs Hdir.
exists [seq (dir (g_path (nth c0 cs i)), i, bs i) | i <- iota 0 (size cs)], N => fuel Hf contrib.
have [H4 H5] := H3 _ Hf; split=> //.
- by rewrite size_map size_iota.
- move=> j b /mapP[i]; rewrite mem_iota => /andP[_ Hi] -> /= Hb.
  by have [_ /(_ b Hb) ->] := H5 _ Hi; eexists.
move=> fs kinds acts s Hh Hrun Hpc i Hi c d0 ids cuts d listing Hd0 Hrep Hl.
have Hj : (dir (g_path c), i, bs i) \in [seq (dir (g_path (nth c0 cs i)), i, bs i) | i <- iota 0 (size cs)].
  by apply/mapP; exists i; rewrite // mem_iota.
have [Hc _] := history_ok (@contribution_map W S flint is_squarefree factor cs fuel) H1 (HistRun Hh Hrun).
have [L1 L2] := restart_ok (@contribution_map W S flint is_squarefree factor cs fuel) H1 Hh Hrun Hpc Hj.
have [T [R [N' [K1 K2 K3 K4]]]] := merged_ok HMW Hj (H2 _ Hi) (H5 _ Hi) Hc L1 L2 Hd0 Hrep Hl.
exists T, R, N'; split=> // L emb HL k; rewrite K2 /expected.
have [Ha Hff _] := Hcs _ Hi; by rewrite brute_forceE //; exact: odd_field.
Qed.

Lemma tables_used c : admissible M c -> flint_fields flint c ->
  exists N tables, forall fuel, N <= fuel ->
    config_exponents W S fuel c = Ok [seq j * g_exponent c | j <- rev (iota 1 (g_count c))] /\
    thread_redtables W S flint fuel c = Ok tables /\
    [seq Curve.rt_exponent t | t <- tables] = [seq j * g_exponent c | j <- rev (iota 1 (g_count c))].
Proof.
move=> Ha Hff; have [ts [H1 H2 H3]] := thread_redtables_ok HMW HWS Ha Hff.
exists (g_count c).+1, ts => fuel Hf; split; last by split; [exact: H1|].
exact: (config_exponents_ok HMW HWS Ha Hff (ltnW Hf)).
Qed.

Lemma offsets_used c : admissible M c -> flint_fields flint c -> flint_polys is_squarefree factor c ->
  exists N bs, forall fuel, N <= fuel -> config_blocks W fuel c = Ok bs /\
    forall b, b \in bs -> exists s, work_block W S is_squarefree factor fuel c b = Ok s /\
      forall k n, st_find s k = Some n -> size k.2 = g_count c.
Proof.
move=> H1 H2 H3; have [bs [kns [N [K1 K2 K3 K4 K5]]]] := config_ok HMW HWS H1 H2 H3.
exists N, bs => fuel Hf; split; first exact: K1.
move=> b Hb; rewrite K3 //; eexists; split; first reflexivity.
move=> k n; have [_ ->] := register_all (kns b); rewrite /credit; case: ifP => // /hasP[kn Hkn Hor] _.
have [_ _ Hs] := K4 _ _ Hb Hkn; case/orP: Hor => /eqP <- //.
by rewrite -Hs /twist /=; move: true; elim: (kn.1.2) => [|x l IH] o //=; rewrite IH.
Qed.

(** What a restarted program reads is what the model of the pool starts with. *)
Lemma restart_reads (cs : seq config) (dir : seq char -> nat) :
  (forall i, i < size cs ->
     [/\ admissible M (nth c0 cs i), flint_fields flint (nth c0 cs i) & flint_polys is_squarefree factor (nth c0 cs i)]) ->
  uniq [seq dir (g_path c) | c <- cs] ->
  exists jobs N, forall fuel, N <= fuel -> program_jobs W fuel dir cs = Ok jobs /\
    forall fs, history (contribution W S is_squarefree factor fuel cs) jobs fs ->
    forall i, i < size cs ->
    forall d0 ids cuts d listing, fresh d0 -> replay (dir (g_path (nth c0 cs i))) fs ids cuts d0 = Ok d ->
      perm_eq listing (names d) ->
    exists N', forall fuel', N' <= fuel' ->
      initial_record M W fuel' d listing = Ok (read_records fs (dir (g_path (nth c0 cs i)))).
Proof.
move=> Hcs Hdir; have [bs [kns [N [H1 H2 H3]]]] := program_ok HMW HWS Hcs Hdir.
exists [seq (dir (g_path (nth c0 cs i)), i, bs i) | i <- iota 0 (size cs)], N => fuel Hf.
have [H4 H5] := H3 _ Hf; split=> // fs Hh i Hi d0 ids cuts d listing Hd0 Hrep Hl.
have Hj : (dir (g_path (nth c0 cs i)), i, bs i) \in [seq (dir (g_path (nth c0 cs i)), i, bs i) | i <- iota 0 (size cs)].
  by apply/mapP; exists i; rewrite // mem_iota.
have [Hun Hpl _] := Hd0; have [svs [K1 K2 K3 K4]] := replay_ok Hun Hpl (fresh_holds Hd0) Hrep.
have [Hc Hs] := history_ok (@contribution_map W S flint is_squarefree factor cs fuel) H1 Hh; have [_ Hsub] := Hs _ Hj.
have Hws := saves_ok Hj (H2 _ Hi) (H5 _ Hi) Hc Hsub erefl K4; have [N' HN] := short_exists svs.
exists N' => fuel' Hf'; have HMW' := half_le HMW.
have [r [-> Hr]] := initial_ok HMW' (holds_perm Hl K3) Hws (HN _ Hf').
by rewrite (blocks_unique Hr (read_records_saves K4)).
Qed.
End Statements.
