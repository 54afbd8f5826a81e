(** Proofs about damaged store files. *)
Set Warnings "-notation-overridden,-ambiguous-paths".
From mathcomp Require Import all_ssreflect ssralg ssrnum ssrint poly finalg zify.
From Verif Require Import Res ResFacts FinField CurveSpec OMap OMapFacts OMapPerm Store StoreSpec StoreProofs Text TextSpec TextProofs
  Files FilesSpec FilesProofs Pool Standalone StandaloneSpec Account StandaloneProofs Mpi MpiSpec Config Worker WorkerSpec EndToEnd
  Main MainSpec MainProofs TornProofs TableSpec TableProofs DiskSpec Disk.

Set Implicit Arguments.
Unset Strict Implicit.
Unset Printing Implicit Defensive.

(** ** Reading a part of a key *)
Lemma size_drop_while P s : size (drop_while P s) <= size s.
Proof. by elim: s => [|c s IH] //=; case: ifP => // _; apply: leq_trans IH _. Qed.

Lemma read_int_some M st z : exists st' z', read_int M st (Some z) = (st', Some z') /\ size (i_rest st') <= size (i_rest st).
Proof.
rewrite /read_int; case: ifP => _; first by do 2 eexists; split; first reflexivity.
have Hs := size_drop_while is_space (i_rest st).
case E: (drop_while is_space (i_rest st)) Hs => [|c r] Hs; first by do 2 eexists; split; first reflexivity.
set r1 := if _ then r else _; have H1 : size r1 <= size (i_rest st) by rewrite /r1; case: ifP => _ //=; move: Hs => /=; lia.
have H2 := leq_trans (size_drop_while is_digit r1) H1.
by case: ifP => _; [|case: ifP => _; case: ifP => _]; do 2 eexists; (split; first reflexivity).
Qed.

Lemma peek_some st c : (peek st).2 = Some c -> peek st = (st, Some c) /\ size (i_rest (ignore1 st)) < size (i_rest st).
Proof.
rewrite /peek /ignore1; case: ifP => // Hg; by case: (i_rest st) => [|c' r] //= [->].
Qed.

Lemma parse_ram_total M W fuel st z acc : size (i_rest st) < fuel ->
  exists r o, parse_ram M W fuel st (Some z) acc = Ok (r, o) /\
    forall st' v, o = Some (st', v) -> isSome v /\ size (i_rest st') <= size (i_rest st).
Proof.
elim: fuel st z acc => [|fuel IH] st z acc //= Hf.
have [st1 [z1 [-> H1]]] := read_int_some M st z.
case Ep: (peek st1) => [st2 d]; have := @peek_some st1; rewrite Ep /= => Hp.
case: eqP => [Ed|_].
  have [[E2 _] Hs] := Hp _ Ed; rewrite E2.
  have [|r [o [-> Ho]]] := IH (ignore1 st1) z1 (rcons acc (to_unsigned W z1)); first lia.
  by exists r, o; split=> // st' v /Ho[? ?]; split=> //; lia.
case: eqP => [Ed|_]; last by do 2 eexists; split; first reflexivity.
have [[E2 _] Hs] := Hp _ Ed; rewrite E2; do 2 eexists; split; first reflexivity.
by move=> st' v [<- <-]; split=> //; lia.
Qed.

Lemma parse_offsets_total M fuel st z acc : size (i_rest st) < fuel ->
  exists r, parse_offsets M fuel st (Some z) acc = Ok r.
Proof.
elim: fuel st z acc => [|fuel IH] st z acc //= Hf.
have [st1 [z1 [-> H1]]] := read_int_some M st z.
case Ep: (peek st1) => [st2 d]; have := @peek_some st1; rewrite Ep /= => Hp.
case: eqP => [Ed|_]; last by eexists.
have [[E2 _] Hs] := Hp _ Ed; rewrite E2; apply: IH; lia.
Qed.

Lemma parse_ram_start M W fuel st st1 z1 : read_int M st None = (st1, Some z1) -> (size (i_rest st1)).+1 < fuel ->
  exists r o, parse_ram M W fuel st None [::] = Ok (r, o) /\
    forall st' v, o = Some (st', v) -> isSome v /\ size (i_rest st') <= size (i_rest st1).
Proof.
case: fuel => // fuel E1 Hf; rewrite /= E1.
case Ep: (peek st1) => [st2 d]; have := @peek_some st1; rewrite Ep /= => Hp.
case: eqP => [Ed|_].
  have [[E2 _] Hs] := Hp _ Ed; rewrite E2.
  have [|r [o [-> Ho]]] := @parse_ram_total M W fuel (ignore1 st1) z1 [:: to_unsigned W z1]; first lia.
  by exists r, o; split=> // st' v /Ho[? ?]; split=> //; lia.
case: eqP => [Ed|_]; last by do 2 eexists; split; first reflexivity.
have [[E2 _] Hs] := Hp _ Ed; rewrite E2; do 2 eexists; split; first reflexivity.
by move=> st' v [<- <-]; split=> //; lia.
Qed.

Lemma parse_key_total M W str : 0 < size str -> is_digit (head 0 str) -> exists k, parse_key M W str = Ok k.
Proof.
case: str => // c str _ Hc; rewrite /parse_key.
have [st1 [z1 [E1 H1]]] : exists st' z', read_int M (open_text (c :: str)) None = (st', Some z') /\ size (i_rest st') <= size str.
  rewrite /read_int /=; have -> : is_space c = false by move: Hc; rewrite /is_digit /is_space /=; lia.
  have -> : (c == c_minus) || (c == c_plus) = false by move: Hc; rewrite /is_digit /c_minus /c_plus /=; lia.
  have -> : (c == c_minus) = false by move: Hc; rewrite /is_digit /c_minus /=; lia.
  rewrite /= Hc /=; have H := size_drop_while is_digit str.
  by case: ifP => _; do 2 eexists; (split; first reflexivity).
have [|r [o [Er Ho]]] := @parse_ram_start M W (size (c :: str)).+1 (open_text (c :: str)) st1 z1 E1; first by move=> /=; lia.
rewrite Er /=; case: o Ho {Er} => [[st [z|]]|] Ho; last by eexists.
  have [_ Hs] := Ho _ _ erefl; have Hs1 : size (i_rest st) < (size (c :: str)).+1 by move=> /=; lia.
  have [os] := @parse_offsets_total M _ st z [::] Hs1; rewrite /= => ->.
  by eexists.
by have [] := Ho _ _ erefl.
Qed.

(** ** Reading a part of a store *)
Lemma key_digit M k : printable M k -> is_digit (head 0 (print_key k)).
Proof.
case: k => -[|x l] os // _; rewrite /print_key /=.
have := dec_digits x; have := dec_nonempty x; by case: l => [|y l] /=; case: (dec x) => [|c ds] //= _ /andP[].
Qed.

Lemma head_take (s : seq nat) i : 0 < i -> head 0 (take i s) = head 0 s.
Proof. by case: s i => [|c s] [|i]. Qed.

Lemma torn_store M W s n : M <= W -> all (fun kn => printable M kn.1) s ->
  exists m extra, (forall fuel line acc, size s < fuel ->
    extract_store M W fuel (open_text (take n (print_store s))) line acc = Ok (merge_into acc (take m s ++ extra))) /\
    (extra = [::] \/ exists k c, [/\ extra = [:: (k, c)], m < size s & c = 0 \/ exists2 c', nth (k, 0) s m = (k, c') & c <= c']).
Proof.
move=> HMW; elim: s n => [|[k c] s IH] n; first by move=> _; exists 0, [::]; split=> [[|f] l a|] //; left.
move=> /= /andP[Hk Hs].
have Hn1 : all (fun x => x != c_nl) (print_key k ++ c_colon :: dec c).
  rewrite all_cat key_neq //=; apply: digits_neq => //; exact: dec_digits.
have -> : print_store ((k, c) :: s) = (print_key k ++ c_colon :: dec c) ++ c_nl :: print_store s.
  by rewrite /print_store /= -!catA /= -catA.
set l := print_key k ++ _ in Hn1 *.
case: (ltnP (size l) n) => Hn.
  have -> : take n (l ++ c_nl :: print_store s) = l ++ c_nl :: take (n - size l).-1 (print_store s).
    rewrite take_cat ltnNge (ltnW Hn) /=; congr cat.
    by have -> : n - size l = (n - size l).-1.+1 by lia.
  have [m [ex [E H]]] := IH (n - size l).-1 Hs; exists m.+1, ex; split.
    move=> [|fuel] line acc // Hf; rewrite [LHS]/= getline_line //= getline_line ?key_neq //.
    by rewrite getline_last ?digits_neq ?dec_digits // key_round //= parse_count_dec E.
  by case: H => [->|[k' [c' [-> Hm H]]]]; [left|right; exists k', c'].
case: n Hn => [|n] Hn.
  by rewrite take0 /=; exists 0, [::]; split=> [[|f] lin a|] //; left.
have Hnl : all (fun x => x != c_nl) (take n.+1 l) by apply/allP => x /mem_take; exact: (allP Hn1).
have Hne : take n.+1 l != [::] by rewrite -size_eq0 size_takel.
have -> : take n.+1 (l ++ c_nl :: print_store s) = take n.+1 l.
  rewrite take_cat; case: ltnP => // H; have -> : n.+1 = size l by lia.
  by rewrite subnn take0 cats0 take_size.
have Hfin f lin a : 0 < f -> extract_store M W f (IStr [::] true false) lin a = Ok a by case: f.
case: (leqP n.+1 (size (print_key k))) => Hi.
  have El : take n.+1 l = take n.+1 (print_key k).
    rewrite /l take_cat; case: ltnP => // H; have -> : n.+1 = size (print_key k) by lia.
    by rewrite subnn take0 cats0 take_size.
  have Hcol : all (fun x => x != c_colon) (take n.+1 l).
    by rewrite El; apply/allP => x /mem_take; apply: (allP (key_neq _ _ _ _ _)).
  have [||k' Ek] := @parse_key_total M W (take n.+1 l).
  - by case: (take _ _) Hne.
  - by rewrite El head_take // (key_digit Hk).
  exists 0, [:: (k', 0)]; split; last by right; exists k', 0; split=> //; left.
  move=> [|f] lin a // Hf; rewrite [LHS]/= getline_last // (negbTE Hne) /= getline_last // (negbTE Hne) /= Ek /=.
  by rewrite Hfin //; move: Hf => /=; lia.
have El : take n.+1 l = print_key k ++ c_colon :: take (n - size (print_key k)) (dec c).
  rewrite /l take_cat ltnNge (ltnW Hi) /=; congr cat.
  by have -> : n.+1 - size (print_key k) = (n - size (print_key k)).+1 by lia.
set ds := take _ (dec c) in El.
have Hds : all is_digit ds by apply/allP => x /mem_take; exact: (allP (dec_digits c)).
exists 0, [:: (k, parse_count ds)]; split.
  move=> [|f] lin a // Hf; rewrite [LHS]/= getline_last // (negbTE Hne) /= El getline_line ?key_neq //.
  rewrite getline_last ?digits_neq // key_round //= Hfin //; by move: Hf => /=; lia.
right; exists k, (parse_count ds); split=> //; right; exists c => //.
rewrite /parse_count; case: ifP => // _; by apply: leq_trans (value_take _ (dec_digits c)) _; rewrite value_dec.
Qed.

(** ** Counts *)
Definition weight (l : store) (k : key) : nat := \sum_(kn <- l) (if k == kn.1 then kn.2 else 0).

Lemma count_entry s kn k : is_map s -> is_map (merge_entry s kn) /\
  count_of (merge_entry s kn) k = count_of s k + (if k == kn.1 then kn.2 else 0).
Proof.
move=> Hs; have [H1 H2] := merge_entry_ok kn Hs; split=> //; rewrite /count_of H2.
by case: eqP => _; case: st_find => [n|]; rewrite /= ?addn0.
Qed.

Lemma count_into s l k : is_map s -> is_map (merge_into s l) /\ count_of (merge_into s l) k = count_of s k + weight l k.
Proof.
rewrite /weight; elim: l s => [|kn l IH] s Hs; first by rewrite big_nil addn0.
have [H1 H2] := count_entry kn k Hs; have [H3 H4] := IH _ H1; split; first exact: H3.
by rewrite big_cons addnA -H2 -H4.
Qed.

Lemma count_weight s k : is_map s -> count_of s k = weight s k.
Proof.
move=> Hs; have [_] := @count_into [::] s k isT; have [_ H] := mergeE (s := [::]) isT Hs.
by rewrite {1}/count_of H add_0opt.
Qed.

Lemma torn_below M W s acc n : M <= W -> is_map s -> all (fun kn => printable M kn.1) s -> is_map acc ->
  exists s1, [/\ forall fuel line, size s < fuel ->
      extract_store M W fuel (open_text (take n (print_store s))) line acc = Ok s1, is_map s1 &
    forall k, count_of s1 k <= count_of acc k + count_of s k].
Proof.
move=> HMW Hm Hp Ha; have [m [ex [E H]]] := torn_store n HMW Hp.
exists (merge_into acc (take m s ++ ex)); split; [by move=> *; exact: E|exact: (count_into _ ([::], [::]) Ha).1|] => k.
have [_ ->] := count_into (take m s ++ ex) k Ha; rewrite leq_add2l (count_weight k Hm) /weight big_cat /=.
case: H => [->|[k' [c [-> Hsz H]]]]; first by rewrite big_nil addn0 -{2}(cat_take_drop m s) big_cat leq_addr.
rewrite -{2}(cat_take_drop m s) big_cat leq_add2l (drop_nth (k', 0) Hsz) !big_cons big_nil addn0 /=.
case: H => [->|[c' -> Hc]]; first by case: ifP.
by case: ifP => _ //=; apply: leq_trans Hc (leq_addr _ _).
Qed.

(** ** Merging damaged directories *)
Section Dir.
Variables (M W : nat) (d d' : directory).
Hypothesis HMW : M <= W.
Hypothesis Hd : shortened d d'.
Variable svs : seq saved.
Hypothesis Hu : uniq [seq sv.1 | sv <- svs].
Hypothesis Hpair : forall sv, sv \in svs -> has_pair d sv.
Hypothesis Hok : all (well_saved M) svs.

Lemma regular_same f : is_regular d' f = is_regular d f.
Proof. by rewrite /is_regular; have [->|[_ [t [n [-> ->]]]]] := Hd.2 f. Qed.

Lemma sel_same l : sel d' l = sel d l.
Proof. by rewrite /sel; congr map; apply: eq_filter => f; rewrite regular_same. Qed.

Lemma lookup_record f : f.2 = record_ext -> lookup d' f = lookup d f.
Proof. by move=> Hf; have [->|[]] := Hd.2 f => //; rewrite Hf. Qed.

Lemma lookup_store f t : lookup d f = Some (Regular t) -> exists n, lookup d' f = Some (Regular (take n t)).
Proof.
move=> Ht; have [->|[_ [t' [n [E1 E2]]]]] := Hd.2 f; first by exists (size t); rewrite take_size.
by exists n; move: E1; rewrite Ht => -[->].
Qed.

Lemma short_loop listing r s : is_set r -> is_map s ->
  (forall f, f \in listing -> f.2 = record_ext -> is_regular d f -> f.1 \in [seq sv.1 | sv <- svs]) ->
  exists r' s', [/\ forall fuel, all (short fuel) svs -> merge_loop M W fuel d' listing r s = Ok (Some (r', s')), is_set r', is_map s',
    forall k, count_of s' k <= count_of s k + sumn [seq count_of (the_save svs id).2.2 k | id <- sel d listing] &
    forall b, (b \in r') = [|| b \in r, has (fun id => b \in (the_save svs id).2.1) (sel d listing) |
      (b == [::]) && has (fun id => (the_save svs id).2.1 != [::]) (sel d listing)]].
Proof.
elim: listing r s => [|f listing IH] r s Hr Hs Hl.
  by exists r, s; split=> // [k|b]; rewrite ?addn0 //= andbF !orbF.
have Hl' : forall f, f \in listing -> f.2 = record_ext -> is_regular d f -> f.1 \in [seq sv.1 | sv <- svs].
  by move=> g Hg; apply: Hl; rewrite inE Hg orbT.
have Hreg' := regular_same; rewrite /sel /=; case: (boolP (is_regular d f)) => Hreg /=; last first.
  have [r2 [s2 [H1 H2 H3 H4 H5]]] := IH r s Hr Hs Hl'; exists r2, s2; split=> // fuel Hf.
  by rewrite Hreg' (negbTE Hreg) /= H1.
case: (f.2 =P record_ext) => [Hf|Hf] /=; last first.
  have [r2 [s2 [H1 H2 H3 H4 H5]]] := IH r s Hr Hs Hl'; exists r2, s2; split=> // fuel Hfu.
  by rewrite Hreg' Hreg /= H1.
have /the_saveP[Hin Hid] : f.1 \in [seq sv.1 | sv <- svs] by apply: Hl; rewrite ?inE ?eqxx.
set sv := the_save svs f.1 in Hin Hid *.
have [Hrec Hst] := Hpair Hin; move/allP: Hok => /(_ _ Hin)/and3P[Hb Hm Hp].
have Ef : f = (sv.1, record_ext) by rewrite Hid -Hf; case: (f).
have [n Hst'] := lookup_store Hst.
have [r1 [_ Hr1 Hr1b]] := record_round HMW Hr Hb (ltnSn _).
have [s1 [Es1 Hs1 Hs1k]] := torn_below n HMW Hm Hp Hs.
have [r2 [s2 [/= E2 Hr2 Hs2 Hs2k Hr2b]]] := IH _ _ Hr1 Hs1 Hl'.
have Efu fuel : all (short fuel) svs ->
    (if ~~ is_regular d' f || (f.2 != record_ext) then merge_loop M W fuel d' listing r s
     else if ~~ is_regular d' (f.1, store_ext) then Ok None
     else r <- extract_record M W fuel (open_in d' f) r;; s <- extract_store M W fuel (open_in d' (f.1, store_ext)) [::] s;;
       merge_loop M W fuel d' listing r s) = Ok (Some (r2, s2)).
  move=> Hfu; move/allP: (Hfu) => /(_ _ Hin)/andP[Hf1 Hf2].
  rewrite !Hreg' Hreg Hf eqxx /=.
  have -> : is_regular d (f.1, store_ext) by rewrite -Hid /is_regular Hst.
  rewrite [in (f.1, store_ext)]Ef [open_in d' f]/open_in (lookup_record Hf) [in lookup d f]Ef Hrec /open_in Hst'.
  have [r1' [-> Hr1' Hr1b']] := record_round HMW Hr Hb Hf1.
  have -> : r1' = r1 by apply: (os_ext block_total) => // b; rewrite Hr1b Hr1b'.
  by rewrite /= (Es1 _ _ Hf2) /= E2.
exists r2, s2; split; [by move=> fuel /Efu; rewrite Hf eqxx| | |move=> k|move=> b] => //.
  apply: leq_trans (Hs2k k) _; rewrite addnA leq_add2r; exact: Hs1k.
rewrite Hr2b Hr1b -/sv -/(sel d listing).
by case: (b \in r) => //=; case: (b \in sv.2.1) => //=; rewrite andb_orr [in RHS]orbCA andbC.
Qed.
End Dir.

Lemma sumn_find (l : seq store) k : sumn [seq count_of s k | s <- l] =
  if sum_opt [seq st_find s k | s <- l] is Some n then n else 0.
Proof.
elim: l => [|s l IH] //=; rewrite IH /count_of; case: st_find => [n|] /=; case: sum_opt => [m|] //=; by rewrite ?addn0.
Qed.

Lemma short_merge M W d d' listing svs : M <= W -> shortened d d' -> holds d listing svs -> all (well_saved M) svs ->
  exists r s s', [/\ forall fuel, all (short fuel) svs ->
      merge M W fuel d listing = Ok (Some (print_store s, print_record r)) /\
      merge M W fuel d' listing = Ok (Some (print_store s', print_record r)), is_map s',
    sum_of_saves svs s, blocks_of_saves svs r & below s' s].
Proof.
move=> HMW Hd Hh Hok; case: (Hh) => Hul Hu Hp Hsub Hall; have [N HN] := short_exists svs.
have [r [s [_ Hs Hr]]] := merge_ok HMW Hh Hok (HN N (leqnn _)).
have [r' [s' [E' Hr' Hs' Hk Hb]]] := short_loop HMW Hd Hp Hok (r := [::]) (s := [::]) isT isT Hall.
have Hperm := sel_perm Hu Hp Hh.
have Er : blocks_of_saves svs r'.
  split=> // b; rewrite Hb in_nil /= !(perm_has _ Hperm).
  by rewrite (has_the_save (fun sv => b \in sv.2.1) Hu) (has_the_save (fun sv => sv.2.1 != [::]) Hu).
exists r, s, s'; split=> //.
  move=> fuel Hf; have [r2 [s2 [-> Hs2 Hr2]]] := merge_ok HMW Hh Hok Hf.
  by rewrite (sum_unique Hs2 Hs) (blocks_unique Hr2 Hr) /merge (E' _ Hf) /= (blocks_unique Er Hr).
move=> k; apply: leq_trans (Hk k) _; rewrite add0n [count_of s k]/count_of Hs.2.
rewrite (perm_sumn (perm_map _ Hperm)) (map_the_save (fun sv => count_of sv.2.2 k) Hu).
by rewrite (map_comp (fun s => count_of s k) (fun sv : saved => sv.2.2)) sumn_find -map_comp.
Qed.

(** ** Totals *)
Lemma totalE s ks : is_map s -> uniq ks -> {subset [seq kn.1 | kn <- s] <= ks} -> total s = \sum_(k <- ks) count_of s k.
Proof.
move=> Hs Hu Hk; rewrite /total (eq_bigr (fun k => weight s k)) => [|k _]; last exact: count_weight.
rewrite /weight exchange_big /=; apply: eq_big_seq => kn Hkn.
have Hin : kn.1 \in ks by apply: Hk; apply: map_f.
by rewrite -big_mkcond /= -big_filter filter_pred1_uniq // big_seq1.
Qed.

Lemma sum_below (ks : seq key) (f g : key -> nat) : (forall k, f k <= g k) ->
  \sum_(k <- ks) f k <= \sum_(k <- ks) g k /\
  (\sum_(k <- ks) f k = \sum_(k <- ks) g k -> forall k, k \in ks -> f k = g k).
Proof.
move=> H; elim: ks => [|k0 ks [IH1 IH2]]; first by rewrite !big_nil.
have H0 := H k0; rewrite !big_cons; split; first exact: leq_add.
by move=> E k; rewrite inE => /orP[/eqP->|]; [lia|apply: IH2; lia].
Qed.

Lemma total_below s s' : is_map s -> is_map s' -> below s' s ->
  total s' <= total s /\ (total s' = total s -> forall k, count_of s' k = count_of s k).
Proof.
move=> Hs Hs' Hb; set ks := undup ([seq kn.1 | kn <- s] ++ [seq kn.1 | kn <- s']).
have Hu : uniq ks by apply: undup_uniq.
rewrite (totalE Hs Hu) => [|k Hk]; last by rewrite mem_undup mem_cat Hk.
rewrite (totalE Hs' Hu) => [|k Hk]; last by rewrite mem_undup mem_cat Hk orbT.
have [H1 H2] := sum_below ks Hb; split=> // E k; case: (boolP (k \in ks)) => [|Hk]; first exact: H2.
move: Hk; rewrite mem_undup mem_cat negb_or => /andP[K1 K2]; rewrite /count_of /st_find.
have N1 : ~~ isSome (om_find key_lt s k) by rewrite (om_find_keys key_total).
have N2 : ~~ isSome (om_find key_lt s' k) by rewrite (om_find_keys key_total).
by case: om_find N1 => //; case: om_find N2.
Qed.

(** ** A full disk *)
Lemma full_disk M W d svs ids id r s : M <= W -> uniq (names d) -> plain d -> holds d (names d) svs ->
  all (well_saved M) ((id, (r, s)) :: svs) -> new_stem d ids = Ok id -> has (fun kn => 0 < kn.2) s ->
  exists d' N, save_limited d ids (print_record r) (print_store s) 0 (size (print_record r)) = Ok d' /\
  forall fuel, N <= fuel -> exists R R' T,
    [/\ initial_record M W fuel d' (names d') = Ok R, forall b, b \in r -> contains R b,
        merge M W fuel d' (names d') = Ok (Some (print_store T, print_record R')), is_map T &
        (forall k, count_of T k = sumn [seq count_of sv.2.2 k | sv <- svs]) /\
        exists k, count_of T k < sumn [seq count_of sv.2.2 k | sv <- (id, (r, s)) :: svs]].
Proof.
move=> HMW Hun Hpl Hh /= /andP[Hw Hws] Hid /hasP[[k n] Hin Hpos]; have [_ Hn1 _] := new_stemP Hid.
have [Hun' Hpl' Hh'] := holds_pair r [::] Hun Hpl Hh Hn1.
have Hws' : all (well_saved M) ((id, (r, [::])) :: svs).
  by rewrite /= Hws andbT /well_saved /=; case/and3P: Hw => ->.
have [N HN] := short_exists ((id, (r, [::])) :: svs).
rewrite /save_limited Hid take0 take_size [bind _ _]/=.
set d' := write_file _ _ _; exists d', N; split=> // fuel Hf.
have [R [E1 HR]] := initial_ok HMW Hh' Hws' (HN _ Hf).
have [R' [T [E2 HT _]]] := merge_ok HMW Hh' Hws' (HN _ Hf).
have Hc k' : count_of T k' = sumn [seq count_of sv.2.2 k' | sv <- svs].
  rewrite (map_comp (fun s => count_of s k') (fun sv : saved => sv.2.2)) sumn_find -map_comp [LHS]/count_of HT.2 map_cons.
  by rewrite sum_opt_cons (_ : st_find _ k' = None) // add_0opt.
exists R, R', T; split; [exact: E1| |exact: E2|exact: HT.1|].
  by move=> b Hb; rewrite containsE ?HR.1 // HR.2 /= Hb.
split=> //; exists k; rewrite Hc /= -[X in X < _]add0n ltn_add2r.
case/and3P: Hw => _ Hm _; rewrite /count_of.
by have := om_find_in key_total k n Hm; rewrite Hin => /esym/eqP; rewrite /st_find => ->.
Qed.

(** ** Damage after a complete run *)
Section Program.
Variables (W S M : nat).
Variable flint : nat -> nat -> flint_field.
Variable is_squarefree : forall p r, seq (ff_field (flint p r)) -> bool.
Variable factor : nat -> nat -> seq nat -> seq (nat * nat).
Hypothesis HMW : 2 * M <= W.
Hypothesis HWS : W <= S.
Variable dir : seq char -> nat.

Lemma complete_certified fuel cs jobs k fs : proper W S M is_squarefree factor dir fuel cs -> jobs_of W dir fuel cs jobs ->
  k < size cs -> sound M is_squarefree factor (nth c0 cs k) ->
  consistent (contribution W S is_squarefree factor fuel cs) jobs fs ->
  perm_eq (recorded fs (nth j0 jobs k).1.1) (nth j0 jobs k).2 ->
  add_up (contribution W S is_squarefree factor fuel cs) fs (nth j0 jobs k).1.1 (nth j0 jobs k).1.2 (nth j0 jobs k).2 ->
  certified M W flint dir (nth c0 cs k) fs.
Proof.
move=> Hp Hj Hk Hso Hc H1 H2 d0 ids cuts d d' listing Hd0 Hrep Hsh Hl.
have [bs [kns [HR HC]]] := sound_computes HMW HWS Hso; have [_ He] := proj2 Hp k Hk; have C := HC _ He.
have Eb := sound_job Hj Hk C; have [Ej _] := proj2 Hj k Hk; rewrite Ej Eb /= in H1 H2.
have Hin : (dir (g_path (nth c0 cs k)), k, bs) \in jobs.
  by rewrite -Eb -Ej -surjective_pairing mem_nth ?(proj1 Hj).
have Hl0 : perm_eq listing (names d) by rewrite -Hsh.1.
have [Hun Hpl _] := Hd0; have [svs [L1 L2 L3 L4]] := replay_ok Hun Hpl (fresh_holds Hd0) Hrep.
have Hsub : {subset recorded fs (dir (g_path (nth c0 cs k))) <= bs} by move=> b; rewrite (perm_mem H1).
have Hws := saves_ok Hin HR C Hc Hsub erefl L4; have [N HN] := short_exists svs.
have Hho := holds_perm Hl0 L3; have HMW' := half_le HMW.
have [R [T [T' [E M2 HT HR' Hb]]]] := short_merge HMW' Hsh Hho Hws; have M1 := HT.1.
have HE := saves_expected HR C H2 L4 HT.
have [Ha Hff _] := Hso; have Ho := EndToEnd.odd_field Ha Hff.
have Eq : g_prime (nth c0 cs k) ^ g_exponent (nth c0 cs k) = #|field_of flint (nth c0 cs k)| by case: Hff.
have Hg : 0 < g_genus (nth c0 cs k) by case: (Ha) => _ /and4P[].
have Et : total T = grand_total (g_prime (nth c0 cs k) ^ g_exponent (nth c0 cs k)) (g_genus (nth c0 cs k)) (g_marked (nth c0 cs k)).
  by rewrite Eq; exact: (T_total Ho Hg M1 HE).
have [B1 B2] := total_below M1 M2 Hb.
exists T', R, N; split=> //.
- by move=> fuel' /HN/E[].
- by rewrite -Et.
move=> L emb HL right.
have ER k' : count_of T k' = right k'.
  by rewrite /count_of HE /expected /right brute_forceE //; case: eqP.
split=> [k'|Htot k']; rewrite -ER; [exact: Hb|by apply: B2; rewrite Htot].
Qed.

Lemma program_certified w fuel o cs calls e : main M W dir w fuel o = Ok (Ran cs calls e) ->
  proper W S M is_squarefree factor dir fuel cs ->
  forall (fs : seq file), earlier W S M is_squarefree factor dir cs fs ->
  let contrib := contribution W S is_squarefree factor fuel cs in
  (forall kinds acts s, run contrib (start kinds fs calls) acts = Ok s -> through e s ->
    forall i, promised e cs i -> sound M is_squarefree factor (nth c0 cs i) ->
      certified M W flint dir (nth c0 cs i) (files s)) /\
  (forall kinds acts s, 0 < size kinds -> mrun contrib (mstart kinds fs calls) acts = Ok s -> mthrough e s ->
    forall i, promised e cs i -> sound M is_squarefree factor (nth c0 cs i) ->
      certified M W flint dir (nth c0 cs i) (m_files s)).
Proof.
move=> Hm Hp; apply: (results_gen HMW HWS Hm Hp) => jobs k fs HJ Hk Hso K1 K2 K3.
exact: (complete_certified Hp HJ Hk Hso K1 K2 K3).
Qed.
End Program.
