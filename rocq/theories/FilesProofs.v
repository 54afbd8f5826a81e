(** Proofs about result directories and the merger. *)
Set Warnings "-notation-overridden,-ambiguous-paths".
From mathcomp Require Import all_ssreflect ssralg ssrnum ssrint zify.
From Verif Require Import Res ResFacts OMap OMapFacts Store StoreSpec StoreProofs Text TextSpec TextProofs.
From Verif Require Import Files FilesSpec.

Set Implicit Arguments.
Unset Strict Implicit.
Unset Printing Implicit Defensive.

Lemma add_0opt : left_id None add_opt. Proof. by case. Qed.
Canonical add_opt_monoid := Monoid.Law add_optA add_0opt add_opt0.
Canonical add_opt_comoid := Monoid.ComLaw add_optC.

Lemma sum_optE (l : seq (option nat)) : sum_opt l = \big[add_opt/None]_(x <- l) x.
Proof. by rewrite /sum_opt foldrE. Qed.

Lemma sum_opt_perm (l l' : seq (option nat)) : perm_eq l l' -> sum_opt l = sum_opt l'.
Proof. by move=> H; rewrite !sum_optE (perm_big _ H). Qed.

Lemma sum_opt_cat (l l' : seq (option nat)) : sum_opt (l ++ l') = add_opt (sum_opt l) (sum_opt l').
Proof. by rewrite !sum_optE big_cat. Qed.

Lemma sum_opt_cons x (l : seq (option nat)) : sum_opt (x :: l) = add_opt x (sum_opt l).
Proof. by []. Qed.

Lemma uniq_map_in (A B : eqType) (f : A -> B) s : uniq (map f s) -> {in s &, injective f}.
Proof.
elim: s => [|a s IH] //= /andP[Ha Hs] x y; rewrite !inE => /orP[/eqP->|Hx] /orP[/eqP->|Hy] // E.
- by rewrite E map_f in Ha.
- by rewrite -E map_f in Ha.
- exact: IH.
Qed.

Section Dir.
Variables (M W fuel : nat) (d : directory).
Hypothesis HMW : M <= W.

(** The record files among the entries, by stem. *)
Definition sel (l : seq fname) : seq (seq char) := [seq f.1 | f <- l & is_regular d f && (f.2 == record_ext)].

Variable svs : seq saved.
Hypothesis Hu : uniq [seq sv.1 | sv <- svs].
Hypothesis Hpair : forall sv, sv \in svs -> has_pair d sv.
Hypothesis Hok : all (well_saved M) svs.
Hypothesis Hshort : all (short fuel) svs.

(** The save with a given stem. *)
Definition the_save (id : seq char) : saved := nth ([::], ([::], [::])) svs (index id [seq sv.1 | sv <- svs]).

Lemma the_saveP id : id \in [seq sv.1 | sv <- svs] -> the_save id \in svs /\ (the_save id).1 = id.
Proof.
move=> Hid; have Hi : index id [seq sv.1 | sv <- svs] < size svs by rewrite -(size_map fst) index_mem.
rewrite /the_save; split; first exact: mem_nth.
by rewrite -(nth_map _ [::] fst) // nth_index.
Qed.

Lemma the_saveK sv : sv \in svs -> the_save sv.1 = sv.
Proof.
move=> Hsv; have [H1 H2] := the_saveP (map_f fst Hsv).
exact: (uniq_map_in Hu).
Qed.

Lemma merge_loopE listing r s : is_set r -> is_map s ->
  (forall f, f \in listing -> f.2 = record_ext -> is_regular d f -> f.1 \in [seq sv.1 | sv <- svs]) ->
  exists r' s', [/\ merge_loop M W fuel d listing r s = Ok (Some (r', s')), is_set r', is_map s',
    forall k, st_find s' k = add_opt (st_find s k) (sum_opt [seq st_find (the_save id).2.2 k | id <- sel listing]) &
    forall b, (b \in r') = [|| b \in r, has (fun id => b \in (the_save id).2.1) (sel listing) |
      (b == [::]) && has (fun id => (the_save id).2.1 != [::]) (sel listing)]].
Proof.
elim: listing r s => [|f listing IH] r s Hr Hs Hl.
  by exists r, s; split=> // [k|b]; rewrite ?add_opt0 //= andbF !orbF.
have Hl' : forall f, f \in listing -> f.2 = record_ext -> is_regular d f -> f.1 \in [seq sv.1 | sv <- svs].
  by move=> g Hg; apply: Hl; rewrite inE Hg orbT.
rewrite /sel /=; case: (boolP (is_regular d f)) => Hreg /=; last exact: IH.
case: (f.2 =P record_ext) => [Hf|_] /=; last exact: IH.
have /the_saveP[Hin Hid] : f.1 \in [seq sv.1 | sv <- svs] by apply: Hl; rewrite ?inE ?eqxx.
set sv := the_save f.1 in Hin Hid *.
have [Hrec Hst] := Hpair Hin; move/allP: Hok => /(_ _ Hin)/and3P[Hb Hm Hp].
move/allP: Hshort => /(_ _ Hin)/andP[Hf1 Hf2].
have Ef : f = (sv.1, record_ext) by rewrite Hid -Hf; case: (f).
have -> : is_regular d (f.1, store_ext) by rewrite -Hid /is_regular Hst.
rewrite [in (f.1, store_ext)]Ef [open_in d f]/open_in [in lookup d f]Ef Hrec /open_in Hst.
have [r1 [-> Hr1 Hr1b]] := record_round HMW Hr Hb Hf1.
have [s1 [-> Hs1 Hs1k]] := store_round HMW Hm Hs Hp Hf2.
have [r2 [s2 [/= -> Hr2 Hs2 Hs2k Hr2b]]] := IH _ _ Hr1 Hs1 Hl'.
exists r2, s2; split=> // [k|b].
  by rewrite Hs2k Hs1k -add_optA.
rewrite Hr2b Hr1b -/sv -/(sel listing).
by case: (b \in r) => //=; case: (b \in sv.2.1) => //=; rewrite andb_orr [in RHS]orbCA andbC.
Qed.

Lemma sel_perm listing : holds d listing svs -> perm_eq (sel listing) [seq sv.1 | sv <- svs].
Proof.
case=> Hul _ _ Hsub Hall; apply: uniq_perm => //.
  rewrite map_inj_in_uniq ?filter_uniq // => -[a1 a2] [b1 b2]; rewrite !mem_filter /=.
  by move=> /andP[/andP[_ /eqP->] _] /andP[/andP[_ /eqP->] _] ->.
move=> id; apply/mapP/idP => [[f]|Hid].
  by rewrite mem_filter => /andP[/andP[H1 /eqP H2] H3] ->; apply: Hall.
have [H1 H2] := the_saveP Hid; exists (id, record_ext) => //.
rewrite mem_filter /= eqxx andbT -H2 Hsub // andbT /is_regular.
by case: (Hpair H1) => ->.
Qed.
End Dir.

Lemma map_the_save (T : Type) svs (f : saved -> T) : uniq [seq sv.1 | sv <- svs] ->
  [seq f (the_save svs id) | id <- [seq sv.1 | sv <- svs]] = [seq f sv | sv <- svs].
Proof. by move=> Hu; rewrite -map_comp; apply/eq_in_map => sv Hsv /=; rewrite the_saveK. Qed.

Lemma has_the_save svs (f : pred saved) : uniq [seq sv.1 | sv <- svs] ->
  has (fun id => f (the_save svs id)) [seq sv.1 | sv <- svs] = has f svs.
Proof. by move=> Hu; rewrite has_map; apply: eq_in_has => sv Hsv /=; rewrite the_saveK. Qed.

(** The merger adds up the saves. *)
Lemma merge_ok M W fuel d listing svs : M <= W -> holds d listing svs ->
  all (well_saved M) svs -> all (short fuel) svs ->
  exists r s, [/\ merge M W fuel d listing = Ok (Some (print_store s, print_record r)),
    sum_of_saves svs s & blocks_of_saves svs r].
Proof.
move=> HMW Hh Hok Hsh; case: (Hh) => Hul Hu Hp Hsub Hall.
have [r [s [E Hr Hs Hk Hb]]] := merge_loopE HMW Hp Hok Hsh (r := [::]) (s := [::]) isT isT Hall.
have Hperm := sel_perm Hu Hp Hh.
exists r, s; split; first by rewrite /merge E.
  split=> // k; rewrite Hk add_0opt -(map_the_save (fun sv => st_find sv.2.2 k) Hu).
  exact/sum_opt_perm/perm_map.
split=> // b; rewrite Hb in_nil /= !(perm_has _ Hperm).
by rewrite (has_the_save (fun sv => b \in sv.2.1) Hu) (has_the_save (fun sv => sv.2.1 != [::]) Hu).
Qed.

(** A record without a store. *)
Lemma merge_loop_missing M W fuel d listing svs r s : M <= W -> uniq [seq sv.1 | sv <- svs] ->
  (forall sv, sv \in svs -> has_pair d sv) -> all (well_saved M) svs -> all (short fuel) svs ->
  is_set r -> is_map s ->
  (forall f, f \in listing -> f.2 = record_ext -> is_regular d f ->
     f.1 \in [seq sv.1 | sv <- svs] \/ ~~ is_regular d (f.1, store_ext)) ->
  has (fun f => [&& is_regular d f, f.2 == record_ext & ~~ is_regular d (f.1, store_ext)]) listing ->
  merge_loop M W fuel d listing r s = Ok None.
Proof.
move=> HMW Hu Hp Hok Hsh; elim: listing r s => [|f listing IH] r s Hr Hs Hl //= Hmiss.
have Hl' : forall f, f \in listing -> f.2 = record_ext -> is_regular d f ->
    f.1 \in [seq sv.1 | sv <- svs] \/ ~~ is_regular d (f.1, store_ext).
  by move=> g Hg; apply: Hl; rewrite inE Hg orbT.
case: (boolP (is_regular d f)) Hmiss => Hreg /= Hmiss; last exact: IH.
case: (f.2 =P record_ext) Hmiss => [Hf|_] /= Hmiss; last exact: IH.
case: (boolP (is_regular d (f.1, store_ext))) Hmiss => //= Hreg2 Hmiss.
have /(the_saveP)[Hin Hid] : f.1 \in [seq sv.1 | sv <- svs].
  by case: (Hl f _ Hf Hreg) => //; rewrite ?inE ?eqxx // Hreg2.
set sv := the_save _ _ in Hin Hid.
have [Hrec Hst] := Hp _ Hin; move/allP: Hok => /(_ _ Hin)/and3P[Hb Hm Hpr].
move/allP: Hsh => /(_ _ Hin)/andP[Hf1 Hf2].
have Ef : f = (sv.1, record_ext) by rewrite Hid -Hf; case: (f).
rewrite [in (f.1, store_ext)]Ef [open_in d f]/open_in [in lookup d f]Ef Hrec /open_in Hst.
have [r1 [-> Hr1 _]] := record_round HMW Hr Hb Hf1.
have [s1 [-> Hs1 _]] := store_round HMW Hm Hs Hpr Hf2.
exact: IH.
Qed.

Lemma merge_missing M W fuel d listing svs : M <= W -> uniq [seq sv.1 | sv <- svs] ->
  (forall sv, sv \in svs -> has_pair d sv) -> all (well_saved M) svs -> all (short fuel) svs ->
  (forall f, f \in listing -> f.2 = record_ext -> is_regular d f ->
     f.1 \in [seq sv.1 | sv <- svs] \/ ~~ is_regular d (f.1, store_ext)) ->
  has (fun f => [&& is_regular d f, f.2 == record_ext & ~~ is_regular d (f.1, store_ext)]) listing ->
  merge M W fuel d listing = Ok None.
Proof. by move=> *; rewrite /merge (@merge_loop_missing _ _ _ _ _ svs). Qed.

(** ** The record read at the start *)
Lemma initialE M W fuel d listing svs r : M <= W -> uniq [seq sv.1 | sv <- svs] ->
  (forall sv, sv \in svs -> has_pair d sv) -> all (well_saved M) svs -> all (short fuel) svs ->
  is_set r ->
  (forall f, f \in listing -> f.2 = record_ext -> is_regular d f -> f.1 \in [seq sv.1 | sv <- svs]) ->
  exists r', [/\ foldM (read_record M W fuel d) r listing = Ok r', is_set r' &
    forall b, (b \in r') = [|| b \in r, has (fun id => b \in (the_save svs id).2.1) (sel d listing) |
      (b == [::]) && has (fun id => (the_save svs id).2.1 != [::]) (sel d listing)]].
Proof.
move=> HMW Hu Hp Hok Hsh; elim: listing r => [|f listing IH] r Hr Hl.
  by exists r; split=> // b; rewrite /= andbF !orbF.
have Hl' : forall f, f \in listing -> f.2 = record_ext -> is_regular d f -> f.1 \in [seq sv.1 | sv <- svs].
  by move=> g Hg; apply: Hl; rewrite inE Hg orbT.
rewrite /sel /= {1}/read_record; case: (boolP (is_regular d f)) => Hreg /=; last exact: IH.
case: (f.2 =P record_ext) => [Hf|_] /=; last exact: IH.
have /the_saveP[Hin Hid] : f.1 \in [seq sv.1 | sv <- svs] by apply: Hl; rewrite ?inE ?eqxx.
set sv := the_save _ f.1 in Hin Hid *.
have [Hrec Hst] := Hp _ Hin; move/allP: Hok => /(_ _ Hin)/and3P[Hb Hm Hpr].
move/allP: Hsh => /(_ _ Hin)/andP[Hf1 Hf2].
have Ef : f = (sv.1, record_ext) by rewrite Hid -Hf; case: (f).
rewrite [open_in d f]/open_in [in lookup d f]Ef Hrec.
have [r1 [-> Hr1 Hr1b]] := record_round HMW Hr Hb Hf1.
have [r2 [/= -> Hr2 Hr2b]] := IH _ Hr1 Hl'.
exists r2; split=> // b.
rewrite Hr2b Hr1b -/sv -/(sel d listing).
by case: (b \in r) => //=; case: (b \in sv.2.1) => //=; rewrite andb_orr [in RHS]orbCA andbC.
Qed.

Lemma initial_ok M W fuel d listing svs : M <= W -> holds d listing svs ->
  all (well_saved M) svs -> all (short fuel) svs ->
  exists r, initial_record M W fuel d listing = Ok r /\ blocks_of_saves svs r.
Proof.
move=> HMW Hh Hok Hsh; case: (Hh) => Hul Hu Hp Hsub Hall.
have [r [E Hr Hb]] := initialE HMW Hu Hp Hok Hsh (r := [::]) isT Hall.
have Hperm := sel_perm Hu Hp Hh.
exists r; split=> //; split=> // b; rewrite Hb in_nil /= !(perm_has _ Hperm).
by rewrite (has_the_save (fun sv => b \in sv.2.1) Hu) (has_the_save (fun sv => sv.2.1 != [::]) Hu).
Qed.

(** ** Saving *)
Lemma lookup_write d f t f' :
  lookup (write_file d f t) f' =
  if f' == f then match lookup d f with None | Some (Regular _) => Some (Regular t) | n => n end
  else lookup d f'.
Proof.
elim: d => [|[g n] d IH] /=; first by [].
case: (f =P g) => [->|Hfg] /=; first by case: eqP => //; case: n.
by rewrite IH; case: (f' =P g) => [->|_] //; case: eqP => // E; case: Hfg.
Qed.

Lemma lookup_write_plain d f t f' : plain d -> (f.2 == record_ext) || (f.2 == store_ext) ->
  lookup (write_file d f t) f' = if f' == f then Some (Regular t) else lookup d f'.
Proof. by move=> Hd /Hd; rewrite lookup_write; case: lookup => [[]|]. Qed.

Lemma plain_write d f t : plain d -> (f.2 == record_ext) || (f.2 == store_ext) -> plain (write_file d f t).
Proof. by move=> Hd Hf g Hg; rewrite lookup_write_plain //; case: eqP => // _; exact: Hd. Qed.

Lemma new_stemP d ids id : new_stem d ids = Ok id ->
  [/\ id \in ids, ~~ is_regular d (id, record_ext) & ~~ is_regular d (id, store_ext)].
Proof.
elim: ids => [|i ids IH] //=; case: ifP => [_ /IH[H1 H2 H3]|/norP[H1 H2] [<-]]; rewrite inE.
  by split=> //; rewrite H1 orbT.
by rewrite eqxx.
Qed.

Lemma names_write d f t : names (write_file d f t) = if f \in names d then names d else rcons (names d) f.
Proof.
elim: d => [|[g n] d IH] //=; rewrite inE.
case: (f =P g) => [->|Hfg] //=; by rewrite IH; case: ifP.
Qed.

Lemma uniq_write d f t : uniq (names d) -> uniq (names (write_file d f t)).
Proof. by rewrite names_write; case: ifP => // H Hu; rewrite rcons_uniq H. Qed.

Lemma mem_write d f t g : (g \in names (write_file d f t)) = (g == f) || (g \in names d).
Proof. by rewrite names_write; case: ifP => H; rewrite ?mem_rcons ?inE //; case: eqP => // ->. Qed.

Lemma regular_name d f : is_regular d f -> f \in names d.
Proof.
rewrite /is_regular; elim: d => [|[g n] d IH] //=; rewrite inE; by case: eqP.
Qed.

Lemma holds_stem d listing svs id sv : holds d listing svs -> ~~ is_regular d (id, record_ext) ->
  sv \in svs -> sv.1 != id.
Proof.
case=> _ _ Hp _ _ Hid Hsv; apply/eqP => E; have [H _] := Hp _ Hsv.
by rewrite -E /is_regular H in Hid.
Qed.

(** A finished save adds one pair. *)
Lemma holds_pair d svs id r s : uniq (names d) -> plain d -> holds d (names d) svs ->
  ~~ is_regular d (id, record_ext) ->
  let d' := write_file (write_file d (id, store_ext) (print_store s)) (id, record_ext) (print_record r) in
  [/\ uniq (names d'), plain d' & holds d' (names d') ((id, (r, s)) :: svs)].
Proof.
move=> Hun Hpl Hh Hid d'; have [_ Hu Hp Hsub Hall] := Hh.
have Hpl1 : plain (write_file d (id, store_ext) (print_store s)) by apply: plain_write.
have Hpl' : plain d' by apply: plain_write.
have Hun' : uniq (names d') by do 2!apply: uniq_write.
have Hl f : lookup d' f = if f == (id, record_ext) then Some (Regular (print_record r))
    else if f == (id, store_ext) then Some (Regular (print_store s)) else lookup d f.
  by rewrite /d' !lookup_write_plain.
split=> //; split=> //.
- rewrite /= Hu andbT; apply/mapP => -[sv Hsv /eqP]; rewrite eq_sym.
  by apply/negP; apply: holds_stem Hh Hid Hsv.
- move=> sv; rewrite inE => /orP[/eqP->|Hsv]; first by rewrite /has_pair !Hl !xpair_eqE !eqxx.
  have Hne := holds_stem Hh Hid Hsv; have [H1 H2] := Hp _ Hsv.
  by rewrite /has_pair !Hl !xpair_eqE (negbTE Hne).
- move=> sv; rewrite inE => /orP[/eqP->|Hsv]; first by rewrite mem_write eqxx.
  by rewrite !mem_write Hsub // !orbT.
move=> f Hf E Hr; rewrite inE /=; case: (f.1 =P id) => //= Hne; apply: Hall => //.
  move: Hf; rewrite !mem_write; case/or3P => // /eqP Ef; first by rewrite Ef in Hne.
  by rewrite Ef in E.
by move: Hr; rewrite /is_regular Hl; case: (f) Hne E => a b /= Hne ->; rewrite !xpair_eqE; case: eqP.
Qed.

Lemma save_ok d svs ids r s d' : uniq (names d) -> plain d -> holds d (names d) svs ->
  save d ids (print_record r) (print_store s) = Ok d' ->
  exists id, [/\ id \in ids, uniq (names d'), plain d', holds d' (names d') ((id, (r, s)) :: svs) &
    forall f, f \in names d -> is_regular d f -> lookup d' f = lookup d f].
Proof.
move=> Hun Hpl Hh Hs; have [id Hid [<-]] := bind_Ok_inv Hs; have [H1 H2 H3] := new_stemP Hid.
have [H4 H5 H6] := holds_pair r s Hun Hpl Hh H2; exists id; split=> // f _ Hf.
have Hpl1 : plain (write_file d (id, store_ext) (print_store s)) by apply: plain_write.
rewrite !lookup_write_plain //; case: eqP => [E|_]; first by rewrite -E Hf in H2.
by case: eqP => // E; rewrite -E Hf in H3.
Qed.


(** Crashes during a save. *)
Lemma crash_ok d ids id rt st i : plain d -> new_stem d ids = Ok id -> i < size (save_states d id rt st) ->
  let d' := nth d (save_states d id rt st) i in
  (forall f, f.1 != id -> lookup d' f = lookup d f) /\
  (is_regular d' (id, record_ext) -> lookup d' (id, store_ext) = Some (Regular st)).
Proof.
move=> Hpl Hid; have [_ H2 H3] := new_stemP Hid.
have Hpl1 t : plain (write_file d (id, store_ext) t) by apply: plain_write.
have Hin_cat (T : Type) (x : T) l1 l2 : List.In x (l1 ++ l2) -> List.In x l1 \/ List.In x l2.
  by elim: l1 => [|y l1 IH] /=; [right|case=> [->|/IH[]]; auto].
have Hin_map (T : Type) (g : nat -> T) x l : List.In x [seq g n | n <- l] -> exists n, x = g n.
  by elim: l => [|y l IH] //= [<-|/IH] //; exists y.
have Hin_nth (T : Type) (x0 : T) l j : j < size l -> List.In (nth x0 l j) l.
  by elim: l j => [|x l IH] [|j] //= Hj; [left|right; apply: IH].
move=> Hi d'; have := Hin_nth _ d _ _ Hi; rewrite -/d'; move: d' => d' {Hi}; rewrite /save_states.
set A := [seq _ | n <- _]; set B := [seq _ | n <- _].
have HA : List.In d' A -> _ := Hin_map _ _ d' _; have HB : List.In d' B -> _ := Hin_map _ _ d' _.
move: A B HA HB => A B HA HB.
case=> [<-|H]; first by split=> // H; rewrite H in H2.
case: (Hin_cat _ _ _ _ H) => {H}; [case/HA|case/HB] => n ->; split.
- by move=> [a b] /= Hf; rewrite lookup_write_plain // xpair_eqE (negbTE Hf).
- by rewrite /is_regular lookup_write_plain // xpair_eqE eqxx /=; move/negP: H2.
- by move=> [a b] /= Hf; rewrite !lookup_write_plain // !xpair_eqE (negbTE Hf).
- by move=> _; rewrite !lookup_write_plain //= !xpair_eqE !eqxx.
Qed.

Lemma crash_final d ids id rt st : new_stem d ids = Ok id ->
  save d ids rt st = Ok (last d (save_states d id rt st)).
Proof.
have E n : iota 0 n.+1 = rcons (iota 0 n) n by rewrite -addn1 iotaD add0n cats1.
move=> Hid; by rewrite /save Hid /save_states (E (size rt)) map_rcons -cat_cons -rcons_cat last_rcons take_size.
Qed.

(** ** Merging into the input directory *)
Lemma sum_unique svs s s' : sum_of_saves svs s -> sum_of_saves svs s' -> s = s'.
Proof. by move=> [H1 H2] [H3 H4]; apply: map_ext => // k; rewrite H2 H4. Qed.

Lemma blocks_unique svs r r' : blocks_of_saves svs r -> blocks_of_saves svs r' -> r = r'.
Proof. by move=> [H1 H2] [H3 H4]; apply: (os_ext block_total) => // b; rewrite H2 H4. Qed.

Lemma sum_opt_some (l : seq (option nat)) : isSome (sum_opt l) = has isSome l.
Proof. by elim: l => [|[a|] l IH] //=; case: (sum_opt l) IH. Qed.

Lemma sum_well_saved M id svs r s : all (well_saved M) svs -> sum_of_saves svs s -> blocks_of_saves svs r ->
  well_saved M (id, (r, s)).
Proof.
move=> Hok [Hs Hk] [Hr Hb]; apply/and3P; split=> //=.
- apply/allP => b; rewrite Hb => /orP[/hasP[sv Hsv Hin]|/andP[/eqP-> _]] //.
  by move/allP: Hok => /(_ _ Hsv)/and3P[/allP H _ _]; apply: H.
- apply/allP => -[k n] Hkn; have : isSome (st_find s k).
    by rewrite /st_find (om_find_keys key_total) //; apply: (map_f fst Hkn).
  rewrite Hk sum_opt_some has_map => /hasP[sv Hsv] /=.
  move/allP: Hok => /(_ _ Hsv)/and3P[_ Hm /allP Hp]; rewrite /st_find (om_find_keys key_total) //.
  by case/mapP=> kn Hin ->; apply: (Hp _ Hin).
Qed.

Lemma short_exists svs : exists fuel, forall n, fuel <= n -> all (short n) svs.
Proof.
elim: svs => [|sv svs [f Hf]]; first by exists 0.
exists (maxn f (maxn (size sv.2.1).+1 (size sv.2.2).+1)) => n; rewrite !geq_max => /and3P[H1 H2 H3].
by rewrite /= Hf // /short H2 H3.
Qed.

Lemma remerge M W d svs out : M <= W -> uniq (names d) -> plain d -> holds d (names d) svs ->
  all (well_saved M) svs -> ~~ is_regular d (out, record_ext) ->
  exists fuel r s r' s', [/\ merge M W fuel d (names d) = Ok (Some (print_store s, print_record r)),
    sum_of_saves svs s,
    let d' := write_file (write_file d (out, store_ext) (print_store s)) (out, record_ext) (print_record r) in
      merge M W fuel d' (names d') = Ok (Some (print_store s', print_record r')) &
    forall k, st_find s' k = add_opt (st_find s k) (st_find s k)].
Proof.
move=> HMW Hun Hpl Hh Hok Hout; have [f0 Hf0] := short_exists svs.
have [r [s [_ Hs Hr]]] := merge_ok HMW Hh Hok (Hf0 _ (leqnn _)).
have Hok' := sum_well_saved out Hok Hs Hr.
have [Hun' Hpl' Hh'] := holds_pair r s Hun Hpl Hh Hout.
have [f1 Hf1] := short_exists ((out, (r, s)) :: svs).
have Hsv : all (well_saved M) ((out, (r, s)) :: svs) by rewrite /= Hok'.
have [r' [s' [E' Hs' Hr']]] := merge_ok HMW Hh' Hsv (Hf1 (maxn f0 f1) (leq_maxr _ _)).
have [r2 [s2 [E2 Hs2 Hr2]]] := merge_ok HMW Hh Hok (Hf0 (maxn f0 f1) (leq_maxl _ _)).
exists (maxn f0 f1), r, s, r', s'; split=> //.
  by rewrite E2 (sum_unique Hs Hs2) (blocks_unique Hr Hr2).
by move=> k; case: Hs' => _ ->; rewrite /= (Hs.2 k).
Qed.

Lemma containsE r b : is_set r -> contains r b = (b \in r).
Proof. exact: (os_memE block_total). Qed.

Lemma torn_record M W d svs ids ids' id r s : M <= W -> uniq (names d) -> plain d -> holds d (names d) svs ->
  all (well_saved M) ((id, (r, s)) :: svs) -> new_stem d ids = Ok id ->
  exists2 i, i < size (save_states d id (print_record r) (print_store s)) &
  let d' := nth d (save_states d id (print_record r) (print_store s)) i in
  (exists fuel R, initial_record M W fuel d' (names d') = Ok R /\
     forall b, b != [::] -> contains R b = has (fun sv : saved => b \in sv.2.1) svs) /\
  forall d'', save d' ids' (print_record r) (print_store s) = Ok d'' ->
    exists fuel R T, merge M W fuel d'' (names d'') = Ok (Some (print_store T, print_record R)) /\
      forall k, st_find T k = add_opt (add_opt (st_find s k) (st_find s k)) (sum_opt [seq st_find sv.2.2 k | sv <- svs]).
Proof.
move=> HMW Hun Hpl Hh Hok Hid; have [Hin Hn1 Hn2] := new_stemP Hid.
set st := print_store s; set rt := print_record r; exists (size st).+2.
  have E (x : directory) (l : seq directory) : size (x :: l) = (size l).+1 by [].
  by rewrite /save_states E size_cat !size_map !size_iota; lia.
have -> : nth d (save_states d id rt st) (size st).+2 = write_file (write_file d (id, store_ext) st) (id, record_ext) [::].
  rewrite /save_states /= nth_cat size_map size_iota ltnn subnn /=.
  by rewrite take0.
move=> d'; have [Hun' Hpl' Hh'] := holds_pair [::] s Hun Hpl Hh Hn1.
have Hok' : all (well_saved M) ((id, ([::], s)) :: svs).
  by move: Hok => /= /andP[/and3P[_ H1 H2] ->]; rewrite /well_saved /= H1 H2.
split.
  have [f0 Hf0] := short_exists ((id, ([::], s)) :: svs).
  have [R [E HR]] := initial_ok HMW Hh' Hok' (Hf0 _ (leqnn _)).
  exists f0, R; split; first exact: E.
  by move=> b /negbTE Hb; rewrite containsE ?HR.1 // HR.2 /= Hb orbF.
move=> d'' Es; have [id' [_ Hun2 Hpl2 Hh2 _]] := save_ok Hun' Hpl' Hh' Es.
have [f1 Hf1] := short_exists ((id', (r, s)) :: (id, ([::], s)) :: svs).
have Hok2 : all (well_saved M) ((id', (r, s)) :: (id, ([::], s)) :: svs).
  by move: Hok => /= /andP[H _]; apply/andP; split.
have [R [T [E HT _]]] := merge_ok HMW Hh2 Hok2 (Hf1 _ (leqnn _)).
exists f1, R, T; split; first exact: E.
by move=> k; rewrite HT.2 /= add_optA.
Qed.
