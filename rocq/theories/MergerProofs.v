(** Proofs about the merger. *)
Set Warnings "-notation-overridden,-ambiguous-paths".
From mathcomp Require Import all_ssreflect ssralg ssrnum ssrint poly finalg zify.
From Verif Require Import Res ResFacts OMap OMapFacts OMapPerm Store StoreSpec StoreProofs Text TextSpec TextProofs
  Files FilesSpec FilesProofs Merger MergerSpec.

Set Implicit Arguments.
Unset Strict Implicit.
Unset Printing Implicit Defensive.

(** ** One run *)
Lemma split_pathE parent stem : m_slash \notin stem -> parent = [::] \/ last 0 parent = m_slash ->
  split_path (parent ++ stem) = (parent, stem).
Proof.
move=> Hs Hp; rewrite /split_path rev_cat.
have -> : find (fun c => c == m_slash) (rev stem ++ rev parent) = size stem.
  rewrite find_cat (_ : has _ (rev stem) = false); last first.
    by apply/negbTE; rewrite has_rev; apply: contra Hs => /hasP[c Hc /eqP <-].
  rewrite size_rev; case: Hp => [->|]; first by rewrite addn0.
  by case/lastP: parent => [|l c] /=; rewrite ?addn0 // last_rcons => ->; rewrite rev_rcons /= addn0.
by rewrite drop_size_cat ?size_rev // take_size_cat ?size_rev // !revK.
Qed.

Lemma output_split node out j stem : output_in node out j stem -> exists2 parent, split_path out = (parent, stem) & node parent = Directory j.
Proof. by case=> parent -> [H1 [H2 H3]]; exists parent => //; exact: split_pathE. Qed.

Lemma split_output node out i parent stem : split_path out = (parent, stem) -> node parent = Directory i ->
  output_in node out i stem.
Proof.
move=> E H2; exists parent; last first.
  split=> //; move: E; rewrite /split_path => -[E1 E2].
  set j := find _ _ in E1 E2; split.
    rewrite -E2 mem_rev; apply/negP => /(nthP 0)[m]; rewrite size_take => Hm Em.
    have Hmj : m < j by move: Hm; case: ifP => //; lia.
    have := @before_find _ 0 (fun c => c == m_slash) (rev out) m Hmj.
    by rewrite -Em nth_take // eqxx.
  case: (ltnP j (size out)) => Hj; last first.
    by left; rewrite -E1 drop_oversize ?size_rev.
  right; rewrite -E1 (drop_nth 0) ?size_rev // rev_cons last_rcons; apply/eqP.
  by apply: (@nth_find _ 0 (fun c => c == m_slash)); rewrite has_find size_rev.
by move: E; rewrite /split_path => -[<- <-]; rewrite -rev_cat cat_take_drop revK.
Qed.

Lemma writes_two node dirs out st rt i f :
  lookup (write_output node dirs out st rt i) f = lookup (dirs i) f \/
  node (split_path out).1 = Directory i /\ f.1 = (split_path out).2 /\ (f.2 = store_ext \/ f.2 = record_ext).
Proof.
rewrite /write_output; case: (split_path out) => parent stem; case: (node parent) => [||j]; try by left.
case: (i =P j) => [->|_]; last by left.
rewrite !lookup_write; case: eqP => [->|_]; first by right; split=> //; split=> //; right.
by case: eqP => [->|_]; [right; split=> //; split=> //; left|left].
Qed.

Lemma merge_none M W fuel d listing : merge M W fuel d listing = Ok None -> has (orphan d) listing.
Proof.
rewrite /merge; move: [::] [::] => r s H; have [o H1 H2] := bind_Ok_inv H; case: o H1 H2 => [[? ?]|] // H1 _.
elim: listing r s {H} H1 => [|f l IH] r s //=; rewrite {1}/orphan; case: (is_regular d f) => /=; last exact: IH.
case: (f.2 =P record_ext) => _ /=; last exact: IH.
case: (is_regular d (f.1, store_ext)) => //= H1.
have [r1 _ H2] := bind_Ok_inv H1; have [s1 _ H3] := bind_Ok_inv H2; exact: IH H3.
Qed.

Lemma merge_some M W fuel d listing x : merge M W fuel d listing = Ok (Some x) -> ~~ has (orphan d) listing.
Proof.
rewrite /merge; move: [::] [::] => r s H; have [o H1 H2] := bind_Ok_inv H; case: o H1 H2 => [[r' s']|] // H1 _.
elim: listing r s {H} H1 => [|f l IH] r s //=; rewrite {1}/orphan; case: (is_regular d f) => /=; last exact: IH.
case: (f.2 =P record_ext) => _ /=; last exact: IH.
case: (is_regular d (f.1, store_ext)) => //= H1.
have [r1 _ H2] := bind_Ok_inv H1; have [s1 _ H3] := bind_Ok_inv H2; exact: IH H3.
Qed.

Lemma exit_codes M W fuel node listing dirs o n dirs' : lists listing ->
  merger M W fuel node listing dirs o = Ok (n, dirs') ->
  (n = 0 /\ (mo_help o \/ exists input out i, [/\ mo_input o = Some input, mo_output o = Some out, node input = Directory i &
      ~~ has (orphan (dirs i)) (names (dirs i))])) \/
  [/\ n = 1, mo_help o = false, forall i, dirs' i = dirs i &
      mo_input o = None \/ mo_output o = None \/ exists2 input, mo_input o = Some input &
        (forall i, node input <> Directory i) \/ exists2 i, node input = Directory i & has (orphan (dirs i)) (names (dirs i))].
Proof.
move=> HL; rewrite /merger; case: (mo_help o); first by case=> <- _; left; split=> //; left.
case: (mo_input o) => [input|]; last by case=> <- <-; right; split=> //; left.
case: (mo_output o) => [out|]; last by case=> <- <-; right; split=> //; right; left.
case En: (node input) => [||i].
- by case=> <- <-; right; split=> //; right; right; exists input => //; left=> i; rewrite En.
- by case=> <- <-; right; split=> //; right; right; exists input => //; left=> i; rewrite En.
move=> H; have [x H1 H2] := bind_Ok_inv H; case: x H1 H2 => [[st rt]|] H1 [<- E].
  left; split=> //; right; exists input, out, i; split=> //.
  by rewrite -(perm_has _ (HL (dirs i))); exact: merge_some H1.
right; split=> //; first by rewrite -E.
right; right; exists input => //; right; exists i => //.
by rewrite -(perm_has _ (HL (dirs i))); exact: merge_none H1.
Qed.

Lemma touches M W fuel node listing dirs o n dirs' : merger M W fuel node listing dirs o = Ok (n, dirs') ->
  forall i f, lookup (dirs' i) f = lookup (dirs i) f \/
  exists out stem, [/\ n = 0, mo_output o = Some out, output_in node out i stem & f.1 = stem /\ (f.2 = store_ext \/ f.2 = record_ext)].
Proof.
rewrite /merger => H i f; move: H; case: (mo_help o); first by case=> _ <-; left.
case: (mo_input o) => [input|]; last by case=> _ <-; left.
case: (mo_output o) => [out|]; last by case=> _ <-; left.
case: (node input) => [||i']; [by case=> _ <-; left|by case=> _ <-; left|].
move=> H; have [x H1 H2] := bind_Ok_inv H; case: x H1 H2 => [[st rt]|] H1 [<- <-]; last by left.
case: (writes_two node dirs out st rt i f) => [->|]; first by left.
case=> H2 [H3 H4]; right; exists out, (split_path out).2; split=> //.
exact: (split_output (surjective_pairing _) H2).
Qed.

Lemma merger_ok M W fuel node listing dirs input out i j stem svs : M <= W -> lists listing ->
  node input = Directory i -> output_in node out j stem -> uniq (names (dirs i)) -> plain (dirs j) ->
  holds (dirs i) (names (dirs i)) svs -> all (well_saved M) svs -> all (short fuel) svs ->
  exists dirs' R T,
    [/\ merger M W fuel node listing dirs (MOptions false (Some input) (Some out)) = Ok (0, dirs'),
        sum_of_saves svs T, blocks_of_saves svs R, has_pair (dirs' j) (stem, (R, T)) & same_but dirs dirs' j stem] /\
    dirs' = (fun i => if i == j then write_file (write_file (dirs i) (stem, store_ext) (print_store T)) (stem, record_ext) (print_record R)
             else dirs i).
Proof.
move=> HMW HL Hi Ho Hun Hpl Hh Hws Hsh; have [parent Es Hj] := output_split Ho.
have Hh' : holds (dirs i) (listing (dirs i)) svs.
  have Hp := HL (dirs i); case: Hh => [H1 H2 H3 H4 H5]; split=> //; first by rewrite (perm_uniq Hp).
    by move=> sv /H4; rewrite (perm_mem Hp).
  by move=> f; rewrite (perm_mem Hp); exact: H5.
have [R [T [E HT HR]]] := merge_ok HMW Hh' Hws Hsh.
exists (write_output node dirs out (print_store T) (print_record R)), R, T; split; last by rewrite /write_output Es Hj.
have Hpl1 : plain (write_file (dirs j) (stem, store_ext) (print_store T)) by apply: plain_write.
split=> //.
- by rewrite /merger /= Hi E.
- by rewrite /has_pair /write_output Es Hj eqxx /= !lookup_write_plain // !xpair_eqE !eqxx.
move=> i' f Hf; case: (writes_two node dirs out (print_store T) (print_record R) i' f) => //.
by rewrite Es => -[H1 [H2 H3]]; case: Hf; split=> //; move: H1; rewrite Hj => -[].
Qed.

Lemma unwritable M W fuel node listing dirs input out i svs : M <= W -> lists listing ->
  node input = Directory i -> (forall j stem, ~ output_in node out j stem) ->
  holds (dirs i) (names (dirs i)) svs -> all (well_saved M) svs -> all (short fuel) svs ->
  exists dirs', merger M W fuel node listing dirs (MOptions false (Some input) (Some out)) = Ok (0, dirs') /\
    forall i, dirs' i = dirs i.
Proof.
move=> HMW HL Hi Ho Hh Hws Hsh.
have Hh' : holds (dirs i) (listing (dirs i)) svs.
  have Hp := HL (dirs i); case: Hh => [H1 H2 H3 H4 H5]; split=> //; first by rewrite (perm_uniq Hp).
    by move=> sv /H4; rewrite (perm_mem Hp).
  by move=> f; rewrite (perm_mem Hp); exact: H5.
have [R [T [E HT HR]]] := merge_ok HMW Hh' Hws Hsh.
rewrite /merger /= Hi E /=; eexists; split; first reflexivity.
move=> i'; rewrite /write_output; case Es: (split_path out) => [parent stem]; case En: (node parent) => [||j] //.
by case: (Ho j stem); exact: split_output Es En.
Qed.

(** ** Merging in stages *)
Definition group := (seq saved * saved)%type.
Definition stands_for (x : group) : Prop := sum_of_saves x.1 x.2.2.2 /\ blocks_of_saves x.1 x.2.2.1.

Lemma groups_sum (L : seq group) T : (forall x, x \in L -> stands_for x) ->
  sum_of_saves [seq x.2 | x <- L] T -> sum_of_saves (flatten [seq x.1 | x <- L]) T.
Proof.
move=> HL [H1 H2]; split=> // k; rewrite H2 {H1 H2}; elim: L HL => [|x L IH] HL //=.
rewrite map_cat sum_opt_cat -IH => [|y Hy]; last by apply: HL; rewrite inE Hy orbT.
by have [[_ ->] _] := HL x (mem_head _ _).
Qed.

Lemma group_nonempty (x : group) : stands_for x -> (x.2.2.1 != [::]) = has (fun sv : saved => sv.2.1 != [::]) x.1.
Proof.
case=> _ [_ H]; apply/idP/hasP => [|[sv Hsv Hne]].
  case E: x.2.2.1 => [|b l] // _; have := H b; rewrite E mem_head => /esym/orP[/hasP[sv Hsv Hb]|/andP[_ /hasP[sv Hsv Hb]]]; exists sv => //.
  by apply: contraL Hb => /eqP->.
case E: (sv.2.1) Hne => [|b l] // _; have := H b; rewrite (_ : has _ _) /=; first by case: x.2.2.1.
by apply/hasP; exists sv; rewrite // E mem_head.
Qed.

Lemma groups_blocks (L : seq group) R : (forall x, x \in L -> stands_for x) ->
  blocks_of_saves [seq x.2 | x <- L] R -> blocks_of_saves (flatten [seq x.1 | x <- L]) R.
Proof.
move=> HL [H1 H2]; split=> // b; rewrite H2 {H1 H2}; elim: L HL => [|x L IH] HL //=.
have IH' : forall y, y \in L -> stands_for y by move=> y Hy; apply: HL; rewrite inE Hy orbT.
have Hx := HL x (mem_head _ _); rewrite !has_cat (group_nonempty Hx); have [_ [_ ->]] := Hx.
move: (IH IH'); case: (b == [::]) => /=; last by rewrite !orbF => ->.
by rewrite -!orbA => H; rewrite !(orbCA _ (has (fun sv : saved => sv.2.1 != [::]) x.1)) -H !orbA orbb.
Qed.

Lemma no_record d svs stem : holds d (names d) svs -> stem \notin [seq sv.1 | sv <- svs] -> ~~ is_regular d (stem, record_ext).
Proof.
case=> _ _ _ _ H Hs; apply: contra Hs => Hr; exact: (H (stem, record_ext) (regular_name Hr) erefl Hr).
Qed.

Section Stages.
Variables (M W fuel : nat) (node : seq char -> fnode) (listing : nat -> directory -> seq fname).
Hypothesis HMW : M <= W.
Hypothesis Hlist : forall t, lists (listing t).
Variables (j : nat) (input out stem : nat -> seq char) (src : nat -> nat) (svs : nat -> seq saved).

Lemma stages_from (ts : seq nat) (dirs : nat -> directory) (L : seq group) :
  (forall t, t \in ts -> [/\ node (input t) = Directory (src t), src t <> j, output_in node (out t) j (stem t),
    uniq (names (dirs (src t))) & holds (dirs (src t)) (names (dirs (src t))) (svs t)]) ->
  (forall t, t \in ts -> all (well_saved M) (svs t) && all (short fuel) (svs t)) ->
  uniq [seq stem t | t <- ts] -> (forall t, t \in ts -> stem t \notin [seq x.2.1 | x <- L]) ->
  uniq (names (dirs j)) -> plain (dirs j) -> holds (dirs j) (names (dirs j)) [seq x.2 | x <- L] ->
  (forall x, x \in L -> stands_for x) -> all (well_saved M) [seq x.2 | x <- L] ->
  exists dirs' L', [/\ merger_runs M W fuel node listing dirs [seq (input t, out t) | t <- ts] = Ok (nseq (size ts) 0, dirs'),
    forall i, i <> j -> dirs' i = dirs i,
    [/\ uniq (names (dirs' j)), plain (dirs' j) & holds (dirs' j) (names (dirs' j)) [seq x.2 | x <- L']],
    (forall x, x \in L' -> stands_for x) /\ all (well_saved M) [seq x.2 | x <- L'] &
    perm_eq (flatten [seq x.1 | x <- L']) (flatten [seq x.1 | x <- L] ++ flatten [seq svs t | t <- ts])].
Proof.
elim: ts dirs L => [|t ts IH] dirs L Hts Hws /= Hu Hn D1 D2 D3 HL HLw.
  by exists dirs, L; split=> //; rewrite cats0.
have [T1 T2 T3 T4 T5] := Hts t (mem_head _ _); have /andP[T6 T7] := Hws t (mem_head _ _).
have [dirs1 [R [T [[E HT HR _ _] Ed]]]] := merger_ok HMW (Hlist (size ts)) T1 T3 T4 D2 T5 T6 T7.
have Hnr : ~~ is_regular (dirs j) (stem t, record_ext).
  by apply: (no_record D3); rewrite -map_comp; exact: (Hn t (mem_head _ _)).
have [F1 F2 F3] := holds_pair R T D1 D2 D3 Hnr.
have E1 : dirs1 j = write_file (write_file (dirs j) (stem t, store_ext) (print_store T)) (stem t, record_ext) (print_record R).
  by rewrite Ed eqxx.
have E2 i : i <> j -> dirs1 i = dirs i by move=> /eqP/negbTE Hi; rewrite Ed Hi.
case/andP: Hu => Hu1 Hu2.
have [| | | | | | | | |dirs2 [L2 [G1 G2 G3 G4 G5]]] := IH dirs1 ((svs t, (stem t, (R, T))) :: L) => //.
- move=> t' Ht'; have [S1 S2 S3 S4 S5] := Hts t' (mem_behead (s := t :: ts) Ht'); by rewrite E2.
- by move=> t' Ht'; apply: Hws; rewrite inE Ht' orbT.
- move=> t' Ht'; rewrite [map _ _]/= inE negb_or (Hn t' (mem_behead (s := t :: ts) Ht')) andbT.
  by apply: contra Hu1 => /eqP <-; exact: map_f.
- by rewrite E1.
- by rewrite E1.
- by rewrite E1.
- by move=> x; rewrite inE => /orP[/eqP->|]; [split|exact: HL].
- by rewrite /= HLw andbT; exact: sum_well_saved T6 HT HR.
exists dirs2, L2; split=> //.
- by rewrite size_map E [bind _ _]/= G1.
- by move=> i Hi; rewrite G2 // E2.
apply: perm_trans G5 _; by rewrite /= -catA perm_catCA.
Qed.
End Stages.

Lemma stages M W fuel node listing dirs n j input out stem src svs : M <= W -> (forall t, lists (listing t)) ->
  (forall t, t < n -> [/\ node (input t) = Directory (src t), src t <> j, output_in node (out t) j (stem t),
    uniq (names (dirs (src t))) & holds (dirs (src t)) (names (dirs (src t))) (svs t)]) ->
  (forall t, t < n -> all (well_saved M) (svs t) && all (short fuel) (svs t)) ->
  uniq [seq stem t | t <- iota 0 n] ->
  uniq (names (dirs j)) -> plain (dirs j) -> (forall f, f \in names (dirs j) -> f.2 != record_ext) ->
  exists dirs' R T N,
    [/\ merger_runs M W fuel node listing dirs [seq (input t, out t) | t <- iota 0 n] = Ok (nseq n 0, dirs'),
        forall i, i <> j -> dirs' i = dirs i,
        sum_of_saves (flatten [seq svs t | t <- iota 0 n]) T, blocks_of_saves (flatten [seq svs t | t <- iota 0 n]) R &
        forall fuel' l, N <= fuel' -> perm_eq l (names (dirs' j)) ->
          merge M W fuel' (dirs' j) l = Ok (Some (print_store T, print_record R))].
Proof.
move=> HMW HL Ht Hw Hu D1 D2 D3.
have Hi t : t \in iota 0 n -> t < n by rewrite mem_iota.
have D4 : holds (dirs j) (names (dirs j)) [::] by split=> // f /D3/negP H /eqP.
have [|||||dirs' [L [E1 E2 [G1 G2 G3] [G4 G5] G6]]] :=
  @stages_from M W fuel node listing HMW HL j input out stem src svs (iota 0 n) dirs [::] _ _ Hu _ D1 D2 D4 => //.
- by move=> t /Hi; exact: Ht.
- by move=> t /Hi; exact: Hw.
have [N HN] := short_exists [seq x.2 | x <- L].
have [R [T [_ HT HR]]] := merge_ok HMW G3 G5 (HN N (leqnn _)).
exists dirs', R, T, N; split=> //.
- by rewrite E1 size_iota.
- have [H1 H2] := groups_sum G4 HT; split=> // k; rewrite H2; apply: sum_opt_perm; exact: perm_map.
- by have [H1 H2] := groups_blocks G4 HR; split=> // b; rewrite H2 !(perm_has _ G6).
move=> fuel' l Hf Hl.
have Hh' : holds (dirs' j) l [seq x.2 | x <- L].
  case: G3 => [H1 H2 H3 H4 H5]; split=> //; first by rewrite (perm_uniq Hl).
    by move=> sv /H4; rewrite (perm_mem Hl).
  by move=> f; rewrite (perm_mem Hl); exact: H5.
have [R' [T' [-> HT' HR']]] := merge_ok HMW Hh' G5 (HN _ Hf).
by rewrite (sum_unique HT' HT) (blocks_unique HR' HR).
Qed.

Lemma merger_succeeds M W fuel node listing dirs input out i j stem svs : M <= W -> lists listing ->
  node input = Directory i -> output_in node out j stem -> uniq (names (dirs i)) -> plain (dirs j) ->
  holds (dirs i) (names (dirs i)) svs -> all (well_saved M) svs -> all (short fuel) svs ->
  exists dirs' R T,
    [/\ merger M W fuel node listing dirs (MOptions false (Some input) (Some out)) = Ok (0, dirs'),
        sum_of_saves svs T, blocks_of_saves svs R, has_pair (dirs' j) (stem, (R, T)) & same_but dirs dirs' j stem].
Proof.
move=> H1 H2 H3 H4 H5 H6 H7 H8 H9; have [dirs' [R [T [H _]]]] := merger_ok H1 H2 H3 H4 H5 H6 H7 H8 H9.
by exists dirs', R, T.
Qed.

(** ** Merging into the input directory *)
Lemma merger_twice M W fuel node listing dirs input out j stem svs : M <= W -> lists listing ->
  node input = Directory j -> output_in node out j stem -> stem \notin [seq sv.1 | sv <- svs] ->
  uniq (names (dirs j)) -> plain (dirs j) ->
  holds (dirs j) (names (dirs j)) svs -> all (well_saved M) svs -> all (short fuel) svs ->
  exists dirs' T T' R N,
    [/\ merger M W fuel node listing dirs (MOptions false (Some input) (Some out)) = Ok (0, dirs'),
        sum_of_saves svs T, is_map T', forall k, count_of T' k = (count_of T k).*2 &
        forall fuel' l, N <= fuel' -> perm_eq l (names (dirs' j)) ->
          merge M W fuel' (dirs' j) l = Ok (Some (print_store T', print_record R))].
Proof.
move=> HMW HL Hi Ho Hst Hun Hpl Hh Hws Hsh.
have [dirs' [R [T [[E HT HR _ _] Ed]]]] := merger_ok HMW HL Hi Ho Hun Hpl Hh Hws Hsh.
have [F1 F2 F3] := holds_pair R T Hun Hpl Hh (no_record Hh Hst).
have E1 : dirs' j = write_file (write_file (dirs j) (stem, store_ext) (print_store T)) (stem, record_ext) (print_record R).
  by rewrite Ed eqxx.
have Hw' : all (well_saved M) ((stem, (R, T)) :: svs) by rewrite /= Hws andbT; exact: sum_well_saved Hws HT HR.
have [N HN] := short_exists ((stem, (R, T)) :: svs); rewrite -E1 in F1 F2 F3.
have [R' [T' [_ HT' HR']]] := merge_ok HMW F3 Hw' (HN N (leqnn _)).
exists dirs', T, T', R', N; split=> //; first by case: HT'.
  move=> k; case: HT' => _ H; case: HT => _ H'; rewrite /count_of H map_cons sum_opt_cons -H'.
  by case: (st_find T k) => [n|] //=; rewrite addnn.
move=> fuel' l Hf Hl.
have Hh' : holds (dirs' j) l ((stem, (R, T)) :: svs).
  case: F3 => [H1 H2 H3 H4 H5]; split=> //; first by rewrite (perm_uniq Hl).
    by move=> sv /H4; rewrite (perm_mem Hl).
  by move=> f; rewrite (perm_mem Hl); exact: H5.
have [R1 [T1 [-> HT1 HR1]]] := merge_ok HMW Hh' Hw' (HN _ Hf).
by rewrite (sum_unique HT1 HT') (blocks_unique HR1 HR').
Qed.
