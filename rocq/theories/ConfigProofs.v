(** Proofs about configuration nodes and messages. *)
Set Warnings "-notation-overridden,-ambiguous-paths".
From Coq Require Import String.
From mathcomp Require Import all_ssreflect ssralg ssrnum ssrint zify.
From Verif Require Import Res ResFacts OMap Store Text TextSpec TextProofs Config CurveIter EnumTheorems.

Set Implicit Arguments.
Unset Strict Implicit.
Unset Printing Implicit Defensive.

Lemma as_int_dec M n : n < M -> as_int M (Some (Scalar (dec n))) = Ok (Posz n).
Proof.
by move=> Hn; rewrite /as_int -[dec n]cats0 (@read_int_pos M [::] n [::] None).
Qed.

Lemma as_int_large M n : M <= n -> as_int M (Some (Scalar (dec n))) = Term.
Proof.
move=> Hn; have [Hd Hne Hv] := decE n; move: Hd Hne Hv; rewrite /as_int /read_int /=.
case: (dec n) => // c ds Hall _ Hv.
have /andP[Hc Hds] := Hall.
have Hsp : is_space c = false by move: Hc; rewrite /is_digit /is_space; lia.
have Hm : (c == c_minus) = false by apply: contraTF Hc => /eqP ->.
have Hp : (c == c_plus) = false by apply: contraTF Hc => /eqP ->.
rewrite /open_text /= Hsp Hm Hp /= Hc.
have := @take_while_cat is_digit ds [::] Hds isT; rewrite cats0 => ->.
by rewrite Hv ltnNge Hn.
Qed.

Lemma decode_ok M W n prime exponent genus marked count path package :
  M <= W -> all (fun x => x < M) [:: prime; exponent; genus; package] ->
  (if count is Some k then k < M else true) ->
  yfind n k_prime = Some (Scalar (dec prime)) ->
  yfind n k_exponent = Some (Scalar (dec exponent)) ->
  yfind n k_genus = Some (Scalar (dec genus)) ->
  yfind n k_marked = Some (Scalar (if marked then text "true" else text "false")) ->
  yfind n k_count = omap (fun k => Scalar (dec k)) count ->
  yfind n k_path = Some (Scalar path) ->
  yfind n k_package = Some (Scalar (dec package)) ->
  decode M W n = Ok (Some (Config prime exponent genus marked (if count is Some k then k else genus)
                             path package)).
Proof.
move=> HM /and5P[H1 H2 H3 H4 _] Hc E1 E2 E3 E4 E5 E6 E7.
have U m : m < M -> to_unsigned W (Posz m) = m by move=> H; apply: to_unsigned_pos; lia.
rewrite /decode E1 E2 E3 E4 E5 E6 E7 !as_int_dec //.
have -> : as_bool (Some (Scalar (if marked then text "true" else text "false"))) = Ok marked by case: (marked).
case: count Hc {E5} => [k|] Hc; by rewrite [omap _ _]/= ?as_int_dec // /bind !U //= ?U.
Qed.

Lemma encode_find c :
  [/\ yfind (encode c) k_prime = Some (Scalar (dec (g_prime c))),
      yfind (encode c) k_exponent = Some (Scalar (dec (g_exponent c))),
      yfind (encode c) k_genus = Some (Scalar (dec (g_genus c))) &
      [/\ yfind (encode c) k_marked = Some (Scalar (if g_marked c then text "true" else text "false")),
          yfind (encode c) k_count = omap (fun k => Scalar (dec k))
            (if g_count c != g_genus c then Some (g_count c) else None),
          yfind (encode c) k_path = Some (Scalar (g_path c)) &
          yfind (encode c) k_package = Some (Scalar (dec (g_package c)))]].
Proof. by rewrite /encode; case: ifP => _. Qed.

Lemma roundtrip M W c : M <= W ->
  all (fun x => x < M) [:: g_prime c; g_exponent c; g_genus c; g_count c; g_package c] ->
  decode M W (encode c) = Ok (Some c).
Proof.
move=> HM /and5P[H1 H2 H3 H4 /andP[H5 _]]; have [E1 E2 E3 [E4 E5 E6 E7]] := encode_find c.
rewrite (decode_ok HM _ _ E1 E2 E3 E4 E5 E6 E7) /= ?H1 ?H2 ?H3 ?H5 //; last by case: ifP.
by case: (c) => p e g m k s z /=; case: eqP => [->|].
Qed.

Lemma missing_field M W n k : k \in [:: k_prime; k_exponent; k_genus; k_path; k_package] ->
  yfind n k = None -> decode M W n = Ok None.
Proof.
rewrite !inE => Hk E; rewrite /decode.
by case/orP: Hk => [/eqP Ek|/or4P[] /eqP Ek]; rewrite Ek in E; rewrite E ?andbF.
Qed.

(** A node without WithMarkedPoint never yields a configuration. *)
Lemma no_marked M W n : yfind n k_marked = None ->
  decode M W n = Ok None \/ decode M W n = Term.
Proof.
move=> E; rewrite /decode E /=; case: ifP => _; first by left.
have nU v : as_int M v = Term \/ exists z, as_int M v = Ok z.
  rewrite /as_int; case: v => [[t|]|]; try by left.
  have : forall st z, read_int M (open_text t) None = (st, z) -> i_fail st || isSome z.
    rewrite /read_int /good /=; case: (drop_while _ t) => [|ch r] st z; first by case=> <-.
    case: (take_while _ _ == _); first by case=> <- <-.
    by case: (ch == c_minus); case: ifP => _ [<- <-].
  case: (read_int _ _ _) => st z /(_ _ _ erefl); case: (i_fail st) => /=; first by left.
  by case: z => // z _; case: (drop_while _ _) => [|a b]; [right; exists z|left].
case: (nU (yfind n k_prime)) => [->|[? ->]]; first by right.
case: (nU (yfind n k_exponent)) => [->|[? ->]]; first by right.
case: (nU (yfind n k_genus)) => [->|[? ->]]; by right.
Qed.

Lemma large_prime M W c : M <= g_prime c -> decode M W (encode c) = Term.
Proof.
move=> H; have [E1 E2 E3 [E4 E5 E6 E7]] := encode_find c.
by rewrite /decode E1 E2 E3 E4 E5 E6 E7 [as_int M (Some (Scalar (dec (g_prime c))))]as_int_large.
Qed.

Lemma verified W dir_ok c :
  (verify dir_ok c <->
     [/\ dir_ok, g_prime c <> 0, g_exponent c <> 0, g_genus c <> 0 & g_count c <> 0 /\ g_package c <> 0]) /\
  (verify dir_ok c -> 2 < g_prime c -> 2 * g_prime c ^ g_exponent c <= W ->
   exists ci N blocks,
     [/\ mk_citer (g_prime c) (g_prime c ^ g_exponent c) (g_genus c) (g_marked c) (g_package c) = Ok ci,
         ~~ ci_is_end ci, size blocks != 0 &
         forall fuel, N <= fuel -> ci_iterate W (ci_as_block W) fuel ci = Ok blocks]).
Proof.
split.
  rewrite /verify; split=> [/and5P[/eqP H1 /eqP H2 /eqP H3 /eqP H4 /andP[-> /eqP H5]] //|].
  by move=> [-> /eqP H1 /eqP H2 /eqP H3 [/eqP H4 /eqP H5]]; apply/and5P; split=> //=.
move=> /and5P[H1 H2 H3 H4 /andP[_ H5]] Hp HW; apply: ctor_total => //; try lia.
by rewrite -{1}(expn0 (g_prime c)) ltn_exp2l //; lia.
Qed.

Lemma verified_two (exponent genus count package : nat) (marked : bool) (path : seq char) :
  0 < exponent -> 0 < genus -> 0 < count -> 0 < package ->
  let c := Config 2 exponent genus marked count path package in
  verify true c /\
  mk_citer (g_prime c) (g_prime c ^ g_exponent c) (g_genus c) (g_marked c) (g_package c) = Term.
Proof. by rewrite /verify /= -!lt0n => -> -> -> ->. Qed.

(** ** Messages *)
Section Round.
Variables (A B : Type) (sa : A -> archive) (la : archive -> res (A * archive)).
Variables (sb : B -> archive) (lb : archive -> res (B * archive)).
Hypothesis Ha : forall x rest, la (sa x ++ rest) = Ok (x, rest).
Hypothesis Hb : forall x rest, lb (sb x ++ rest) = Ok (x, rest).

Lemma pair_round x rest : load_pair la lb (save_pair sa sb x ++ rest) = Ok (x, rest).
Proof. by case: x => a b; rewrite /save_pair /load_pair -catA Hb /= Ha. Qed.

Lemma vector_round xs rest : load_vector la (save_vector sa xs ++ rest) = Ok (xs, rest).
Proof.
rewrite /load_vector /save_vector /=; elim: xs => //= x xs IH.
by rewrite -catA Ha /= IH.
Qed.
End Round.

Lemma nat_round n rest : load_nat (save_nat n ++ rest) = Ok (n, rest). Proof. by []. Qed.
Lemma string_round s rest : load_string (save_string s ++ rest) = Ok (s, rest). Proof. by []. Qed.

Lemma config_round c rest : load_config (save_config c ++ rest) = Ok (c, rest).
Proof. by case: c. Qed.
Lemma block_round b rest : load_block (save_block b ++ rest) = Ok (b, rest).
Proof. exact: (vector_round (pair_round nat_round nat_round)). Qed.
Lemma blocks_round bs rest : load_blocks (save_blocks bs ++ rest) = Ok (bs, rest).
Proof. exact: (vector_round block_round). Qed.
Lemma counts_round c rest : load_counts (save_counts c ++ rest) = Ok (c, rest).
Proof. exact: (pair_round nat_round nat_round). Qed.
Lemma texts_round c rest : load_texts (save_texts c ++ rest) = Ok (c, rest).
Proof. exact: (pair_round string_round string_round). Qed.
