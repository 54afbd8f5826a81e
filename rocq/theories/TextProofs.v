(** Round trips of the text formats. *)
Set Warnings "-notation-overridden,-ambiguous-paths".
From mathcomp Require Import all_ssreflect ssralg ssrnum ssrint intdiv zify.
From Verif Require Import Res ResFacts OMap OMapFacts Store StoreSpec StoreProofs Text TextSpec.

Set Implicit Arguments.
Unset Strict Implicit.
Unset Printing Implicit Defensive.

(** ** Decimal notation *)
Lemma value_rcons ds d : value (rcons ds d) = 10 * value ds + (d - c_zero).
Proof. by rewrite /value -cats1 foldl_cat. Qed.

Lemma dec_recE fuel n acc : n <= fuel -> exists ds,
  [/\ dec_rec fuel n acc = ds ++ acc, all is_digit ds, ds != [::] & value ds = n].
Proof.
elim: fuel n acc => [|fuel IH] n acc Hn.
  by move: Hn; rewrite leqn0 => /eqP ->; exists [:: c_zero].
rewrite /=; case: ltnP => H10.
  exists [:: c_zero + n]; split=> //; last by rewrite /value /= /c_zero; lia.
  by rewrite /= /is_digit /c_zero; lia.
have [|ds [-> H1 H2 H3]] := IH (n %/ 10) ((c_zero + n %% 10) :: acc); first by lia.
exists (rcons ds (c_zero + n %% 10)); split.
- by rewrite cat_rcons.
- rewrite all_rcons H1 andbT /is_digit /c_zero; lia.
- by case: ds {H1 H2 H3}.
- rewrite value_rcons H3 /c_zero; lia.
Qed.

Lemma decE n : [/\ all is_digit (dec n), dec n != [::] & value (dec n) = n].
Proof. by have [ds []] := @dec_recE n n [::] (leqnn n); rewrite cats0 /dec => ->. Qed.

Lemma dec_digits n : all is_digit (dec n). Proof. by case: (decE n). Qed.
Lemma dec_nonempty n : dec n != [::]. Proof. by case: (decE n). Qed.
Lemma value_dec n : value (dec n) = n. Proof. by case: (decE n). Qed.

Lemma parse_count_dec n : parse_count (dec n) = n.
Proof. by rewrite /parse_count dec_nonempty dec_digits value_dec. Qed.

(** ** Scanning *)
Definition stops (P : pred char) (r : seq char) : bool := if r is c :: _ then ~~ P c else true.

Lemma take_while_cat P s r : all P s -> stops P r -> take_while P (s ++ r) = s.
Proof.
elim: s => [|c s IH] /=; first by case: r => [|c r] //= _ /negbTE ->.
by case/andP=> -> /IH H /H ->.
Qed.

Lemma drop_while_cat P s r : all P s -> stops P r -> drop_while P (s ++ r) = r.
Proof.
elim: s => [|c s IH] /=; first by case: r => [|c r] //= _ /negbTE ->.
by case/andP=> -> /IH H /H ->.
Qed.

(** An integer that fits [int], in text. *)
Lemma read_int_pos M sp n r old : all is_space sp -> (n < M)%N -> stops is_digit r ->
  read_int M (open_text (sp ++ dec n ++ r)) old = (IStr r (r == [::]) false, Some (Posz n)).
Proof.
move=> Hsp Hn Hr; rewrite /read_int /= .
have [Hd Hne Hv] := decE n.
have Hst : stops is_space (dec n ++ r).
  by case: (dec n) Hd Hne => //= c ds /andP[Hc _] _; move: Hc; rewrite /is_digit /is_space; lia.
rewrite drop_while_cat //.
case E: (dec n) Hd Hne => [|c ds] //= /andP[Hc Hds] _.
have -> : (c == c_minus) || (c == c_plus) = false.
  by move: Hc; rewrite /is_digit /c_minus /c_plus; lia.
have -> : (c == c_minus) = false by move: Hc; rewrite /is_digit /c_minus; lia.
rewrite (_ : c :: ds ++ r = (c :: ds) ++ r) // take_while_cat ?drop_while_cat //=; try by rewrite Hc.
by rewrite -E Hv Hn.
Qed.

Lemma read_int_neg M sp n r old : all is_space sp -> (n < M)%N -> stops is_digit r ->
  read_int M (open_text (sp ++ (c_minus :: dec n.+1) ++ r)) old = (IStr r (r == [::]) false, Some (Negz n)).
Proof.
move=> Hsp Hn Hr; rewrite /read_int /= .
have [Hd Hne Hv] := decE n.+1.
rewrite drop_while_cat //= take_while_cat ?drop_while_cat //.
by rewrite (negbTE Hne) Hv Hn.
Qed.

Lemma read_intE M sp z r old : all is_space sp -> in_int M z -> stops is_digit r ->
  read_int M (open_text (sp ++ dec_int z ++ r)) old = (IStr r (r == [::]) false, Some z).
Proof.
by case: z => n Hsp Hz Hr; [apply: read_int_pos|apply: read_int_neg] => //; move: Hz; rewrite /in_int; lia.
Qed.

Lemma read_int_end M sp old : all is_space sp -> read_int M (open_text sp) old = (IStr [::] true true, old).
Proof. by move=> Hsp; rewrite /read_int /= -(cats0 sp) drop_while_cat. Qed.

Lemma to_unsigned_pos W n : n < W -> to_unsigned W (Posz n) = n.
Proof. by move=> H; rewrite /to_unsigned modz_nat /= modn_small. Qed.

(** ** Keys *)
Local Arguments commas : simpl never.
Lemma commas1 x : commas [:: x] = x. Proof. by []. Qed.
Lemma commas_cons x s : s != [::] -> commas (x :: s) = x ++ c_comma :: commas s.
Proof. by case: s. Qed.


Lemma parse_ramE M W fuel l tail old acc : l != [::] -> all (fun x => x < M) l -> M <= W ->
  size l <= fuel ->
  parse_ram M W fuel (open_text (commas [seq dec x | x <- l] ++ c_semi :: tail)) old acc =
  Ok (acc ++ l, Some (open_text tail, Some (Posz (last 0 l)))).
Proof.
move=> Hl Hall HMW; elim: l fuel old acc Hl Hall => // x l IH [|fuel] old acc _ //= /andP[Hx Hall] Hf.
case: l IH Hall Hf => [|y l] IH Hall Hf.
  rewrite commas1 (@read_int_pos _ [::]) //= ?eqxx to_unsigned_pos ?(leq_trans Hx) //.
  by rewrite cats1.
rewrite commas_cons // -catA (@read_int_pos _ [::]) //= ?eqxx to_unsigned_pos ?(leq_trans Hx) //.
rewrite (IH fuel) //.
by rewrite cat_rcons.
Qed.

Lemma parse_offsetsE M fuel l old acc : l != [::] -> all (in_int M) l -> size l <= fuel ->
  parse_offsets M fuel (open_text (commas [seq dec_int x | x <- l])) old acc = Ok (acc ++ l).
Proof.
move=> Hl Hall; elim: l fuel old acc Hl Hall => // x l IH [|fuel] old acc _ //= /andP[Hx Hall] Hf.
case: l IH Hall Hf => [|y l] IH Hall Hf.
  rewrite commas1 -[dec_int x]cats0 (@read_intE _ [::]) //=.
  by rewrite cats1.
rewrite commas_cons // (@read_intE _ [::]) //= ?eqxx (IH fuel) //.
by rewrite cat_rcons.
Qed.

Lemma dec_int_nonempty z : dec_int z != [::].
Proof. by case: z => n //=; exact: dec_nonempty. Qed.

Lemma size_commas_ge s : all (fun x => x != [::]) s -> size s <= size (commas s).
Proof.
elim: s => [|x s IH] //= /andP[Hx Hs].
case: s IH Hs => [|y s] IH Hs; first by case: x Hx.
by have := IH Hs; rewrite (@commas_cons x) // size_cat /=; lia.
Qed.

Lemma key_round M W k : M <= W -> printable M k -> parse_key M W (print_key k) = Ok k.
Proof.
case: k => rs os HMW /and4P[/= Hr Hra Ho Hoa].
rewrite /parse_key; set n := (size _).+1; have Hn : n = (size (print_key (rs, os))).+1 by [].
rewrite [print_key _]/print_key [in LHS]/fst [in LHS]/snd; clearbody n.
rewrite parse_ramE //; last first.
  have : all (fun x => x != [::]) [seq dec x | x <- rs].
    by apply/allP => x /mapP[y _ ->]; exact: dec_nonempty.
  by move/size_commas_ge; rewrite Hn /print_key size_map size_cat /=; lia.
rewrite /= parse_offsetsE //=.
have : all (fun x => x != [::]) [seq dec_int x | x <- os].
  by apply/allP => x /mapP[y _ ->]; exact: dec_int_nonempty.
by move/size_commas_ge; rewrite Hn /print_key size_map size_cat /=; lia.
Qed.

(** ** Lines *)
Lemma getline_line d l r old : all (fun c => c != d) l ->
  getline d (open_text (l ++ d :: r)) old = (open_text r, l).
Proof. by move=> Hl; rewrite /getline /= take_while_cat ?drop_while_cat //= ?eqxx. Qed.

Lemma getline_last d l old : all (fun c => c != d) l ->
  getline d (open_text l) old = (IStr [::] true (l == [::]), l).
Proof.
have E1 := @take_while_cat (fun c => c != d) l [::]; have E2 := @drop_while_cat (fun c => c != d) l [::].
by rewrite cats0 in E1 E2 => Hl; rewrite /getline /= E1 // E2.
Qed.

Lemma digits_neq d ds : ~~ is_digit d -> all is_digit ds -> all (fun c => c != d) ds.
Proof. by move=> Hd /allP H; apply/allP => c /H; apply: contraTneq => ->. Qed.

Lemma dec_int_neq d z : ~~ is_digit d -> d != c_minus -> all (fun c => c != d) (dec_int z).
Proof.
move=> Hd Hm; case: z => n /=; rewrite ?(eq_sym c_minus) ?Hm ?digits_neq ?dec_digits //.
Qed.

Lemma commas_neq d s : d != c_comma -> all (all (fun c => c != d)) s -> all (fun c => c != d) (commas s).
Proof.
move=> Hd; elim: s => [|x s IH] //= /andP[Hx /IH Hs].
case: s Hs {IH} => [|y s] Hs //; by rewrite all_cat Hx /= (eq_sym c_comma) Hd.
Qed.

Lemma key_neq d k : ~~ is_digit d -> d != c_minus -> d != c_comma -> d != c_semi ->
  all (fun c => c != d) (print_key k).
Proof.
move=> H1 H2 H3 H4; rewrite /print_key all_cat /= (eq_sym c_semi) H4 /=.
apply/andP; split; apply: commas_neq => //; apply/allP => x /mapP[y _ ->].
  by apply: digits_neq => //; exact: dec_digits.
exact: dec_int_neq.
Qed.

Lemma print_key_nonempty k : print_key k != [::].
Proof. by rewrite /print_key; case: commas. Qed.

Lemma extract_storeE M W fuel s line s0 : M <= W -> all (fun kn => printable M kn.1) s ->
  size s < fuel ->
  extract_store M W fuel (open_text (print_store s)) line s0 = Ok (merge_into s0 s).
Proof.
move=> HMW; elim: s fuel line s0 => [|[k n] s IH] [|fuel] line s0 //= /andP[Hk Hs] Hf.
have Hn1 : all (fun c => c != c_nl) (print_key k ++ c_colon :: dec n).
  rewrite all_cat key_neq //=; apply: digits_neq => //; exact: dec_digits.
have -> : print_store ((k, n) :: s) = (print_key k ++ c_colon :: dec n) ++ c_nl :: print_store s.
  by rewrite /print_store /= -!catA /= -catA.
rewrite getline_line //= getline_line ?key_neq //.
rewrite getline_last ?digits_neq ?dec_digits // key_round //= parse_count_dec.
exact: IH.
Qed.

Lemma store_round M W fuel s s0 : M <= W -> is_map s -> is_map s0 ->
  all (fun kn => printable M kn.1) s -> size s < fuel ->
  exists s', [/\ extract_store M W fuel (open_text (print_store s)) [::] s0 = Ok s', is_map s' &
    forall k, st_find s' k = add_opt (st_find s0 k) (st_find s k)].
Proof.
move=> HMW Hs Hs0 Hp Hf; have [H1 H2] := mergeE Hs0 Hs.
by exists (merge_into s0 s); rewrite extract_storeE.
Qed.

Lemma store_round_empty M W fuel s : M <= W -> is_map s ->
  all (fun kn => printable M kn.1) s -> size s < fuel ->
  extract_store M W fuel (open_text (print_store s)) [::] [::] = Ok s.
Proof.
move=> HMW Hs Hp Hf; rewrite extract_storeE //; congr Ok.
by have [H1 H2] := mergeE (s := [::]) isT Hs; apply: map_ext.
Qed.

(** ** Records *)
Lemma extract_boundsE M W fuel b sp l u acc : M <= W -> all is_space sp ->
  all (fun bd => (bd.1 < M) && (bd.2 < M)) b -> size b < fuel ->
  extract_bounds M W fuel (open_text (sp ++ print_block b)) l u acc = Ok (acc ++ b).
Proof.
move=> HMW; elim: b fuel sp l u acc => [|[x y] b IH] [|fuel] sp l u acc Hsp //=.
  by move=> _ _; rewrite cats0 read_int_end // cats0.
move=> /andP[/andP[Hx Hy] Hb] Hf.
rewrite (_ : sp ++ _ = sp ++ dec x ++ [:: c_space] ++ dec y ++ [:: c_space] ++ print_block b); last first.
  by rewrite /print_block /= -!catA /= -!catA.
rewrite read_int_pos //= (@read_int_pos _ [:: c_space]) //= !to_unsigned_pos; try exact: leq_trans HMW.
by rewrite (IH fuel [:: c_space]) // cat_rcons.
Qed.

Lemma block_neq b : all (fun c => c != c_nl) (print_block b).
Proof.
elim: b => [|[x y] b IH] //; rewrite /print_block /= !all_cat /= -/(print_block _) all_cat IH /=.
by rewrite !(digits_neq _ (dec_digits _)).
Qed.

Lemma size_print_block b : size b <= size (print_block b).
Proof.
elim: b => [|[x y] b IH] //; rewrite /print_block /= !size_cat /= -/(print_block _) size_cat /=.
by move: IH; lia.
Qed.

Lemma extract_blockE M W b r : M <= W -> all (fun bd => (bd.1 < M) && (bd.2 < M)) b ->
  extract_block M W (open_text (print_block b ++ c_nl :: r)) = Ok (open_text r, b).
Proof.
move=> HMW Hb; rewrite /extract_block getline_line ?block_neq //.
by rewrite (@extract_boundsE _ _ _ _ [::]) // ltnS size_print_block.
Qed.

Lemma extract_blocksE M W fuel bs r : M <= W ->
  all (all (fun bd => (bd.1 < M) && (bd.2 < M))) bs -> size bs < fuel ->
  extract_blocks M W fuel (open_text (print_record bs)) r =
  Ok (foldl (os_insert block_lt) r (rcons bs [::])).
Proof.
move=> HMW; elim: bs fuel r => [|b bs IH] [|fuel] r //=; first by case: fuel.
move=> /andP[Hb Hbs] Hf.
have -> : print_record (b :: bs) = print_block b ++ c_nl :: print_record bs.
  by rewrite /print_record /= -catA.
by rewrite extract_blockE //=; apply: IH.
Qed.

Lemma mem_foldl_insert bs (r : seq block) : is_set r ->
  is_set (foldl (os_insert block_lt) r bs) /\ foldl (os_insert block_lt) r bs =i r ++ bs.
Proof.
elim: bs r => [|b bs IH] r Hr /=; first by split=> // x; rewrite cats0.
have [H1 H2] := IH _ (os_wf_insert block_total b Hr); split=> // x.
rewrite H2 !mem_cat (mem_os_insert block_total) // inE; by rewrite orbCA orbA.
Qed.

Lemma record_round M W fuel bs r0 : M <= W -> is_set r0 ->
  all (all (fun bd => (bd.1 < M) && (bd.2 < M))) bs -> size bs < fuel ->
  exists r, [/\ extract_record M W fuel (open_text (print_record bs)) r0 = Ok r, is_set r &
    forall b, (b \in r) = [|| b \in r0, b \in bs | (bs != [::]) && (b == [::])]].
Proof.
move=> HMW Hr0 Hbs Hf; rewrite /extract_record.
case: bs Hbs Hf => [|b0 bs] Hbs Hf.
  by rewrite /=; case: fuel Hf => // n _; exists r0; split=> // b; rewrite ?in_nil /= ?orbF.
have -> : (peek (open_text (print_record (b0 :: bs)))).1 = open_text (print_record (b0 :: bs)).
  by rewrite /peek /= /print_record /=; case: print_block.
rewrite extract_blocksE //; have [H1 H2] := mem_foldl_insert (rcons (b0 :: bs) [::]) Hr0.
exists (foldl (os_insert block_lt) r0 (rcons (b0 :: bs) [::])); split=> // b.
by rewrite H2 mem_cat mem_rcons in_cons (orbC (b == [::])).
Qed.

Lemma unreadable_record M W fuel r : extract_record M W fuel open_failed r = OutOfFuel.
Proof.
rewrite /extract_record /=; elim: fuel r => [|fuel IH] r //=.
Qed.
