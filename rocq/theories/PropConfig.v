(** Properties C48, C49 and C50: configuration nodes and messages.  Statements use the model functions of
    Config.v, CurveIter.v and Text.v only. *)
Set Warnings "-notation-overridden,-ambiguous-paths".
From Coq Require Import String.
From mathcomp Require Import all_ssreflect ssralg ssrnum ssrint.
From Verif Require Import Res OMap Store Text Config CurveIter EnumTheorems ConfigProofs.

Set Implicit Arguments.
Unset Strict Implicit.
Unset Printing Implicit Defensive.

(** The first entry of the example in the README, with the field it lacks. *)
Definition readme_node : ynode :=
  [:: (text "Prime", Scalar (text "7")); (text "PrimeExponent", Scalar (text "1"));
      (text "Genus", Scalar (text "2")); (text "ResultPath", Scalar (text "q7g2"));
      (text "PackageSize", Scalar (text "2500"))].
Definition full_node : ynode := (text "WithMarkedPoint", Scalar (text "true")) :: readme_node.
Definition config_case : config := Config 7 1 2 true 3 (text "q7g2") 2500.

(** C48, the part that holds: numbers below 2^31 are read back, and the count exponent is the genus if it
    is not given.  Full statement: the same for all numbers and for nodes with the documented fields; it
    fails, see the two refutations. *)
Theorem C48_decode_partial :
  forall (M W : nat) (n : ynode) (prime exponent genus : nat) (marked : bool) (count : option nat)
    (path : seq char) (package : nat),
    M <= W -> all (fun x => x < M) [:: prime; exponent; genus; package] ->
    (if count is Some k then k < M else true) ->
    yfind n (text "Prime") = Some (Scalar (dec prime)) ->
    yfind n (text "PrimeExponent") = Some (Scalar (dec exponent)) ->
    yfind n (text "Genus") = Some (Scalar (dec genus)) ->
    yfind n (text "WithMarkedPoint") = Some (Scalar (if marked then text "true" else text "false")) ->
    yfind n (text "CountExponent") = omap (fun k => Scalar (dec k)) count ->
    yfind n (text "ResultPath") = Some (Scalar path) ->
    yfind n (text "PackageSize") = Some (Scalar (dec package)) ->
    decode M W n = Ok (Some (Config prime exponent genus marked (if count is Some k then k else genus)
                               path package)).
Proof. exact: decode_ok. Qed.
Print Assumptions C48_decode_partial.

Example C48_decode_case :
  yfind full_node (text "CountExponent") = None /\ dec 2500 = text "2500" /\
  decode 3000 4000 full_node = Ok (Some (Config 7 1 2 true 2 (text "q7g2") 2500)).
Proof. by vm_compute. Qed.

(** C48: encoding and decoding gives the configuration back. *)
Theorem C48_round_trip_partial :
  forall (M W : nat) (c : config), M <= W ->
    all (fun x => x < M) [:: g_prime c; g_exponent c; g_genus c; g_count c; g_package c] ->
    decode M W (encode c) = Ok (Some c).
Proof. exact: roundtrip. Qed.
Print Assumptions C48_round_trip_partial.

Example C48_round_trip_case :
  all (fun x => x < 3000) [:: 7; 1; 2; 3; 2500] /\ size (encode config_case) = 7 /\
  decode 3000 4000 (encode config_case) = Ok (Some config_case).
Proof. by vm_compute. Qed.

(** C48: a missing required field is reported. *)
Theorem C48_missing_field :
  forall (M W : nat) (n : ynode) (k : seq char),
    k \in [seq text s | s <- [:: "Prime"; "PrimeExponent"; "Genus"; "ResultPath"; "PackageSize"]%string] ->
    yfind n k = None -> decode M W n = Ok None.
Proof. exact: missing_field. Qed.
Print Assumptions C48_missing_field.

Example C48_missing_case :
  yfind (behead full_node) (text "Prime") = Some (Scalar (text "7")) /\
  decode 3000 4000 (drop 2 full_node) = Ok None.
Proof. by vm_compute. Qed.

(** C48 is false of the documented fields: without WithMarkedPoint, which the README does not mention,
    no configuration is ever read, and if the other fields are present the program ends with an uncaught
    exception. *)
Theorem C48_documented_fields_refuted :
  forall (M W : nat) (n : ynode), yfind n (text "WithMarkedPoint") = None ->
    decode M W n = Ok None \/ decode M W n = Term.
Proof. exact: no_marked. Qed.
Print Assumptions C48_documented_fields_refuted.

Example C48_documented_case : decode 3000 4000 readme_node = Term.
Proof. by vm_compute. Qed.

(** C48 is false of primes that do not fit an [int]: they are written, and reading them fails. *)
Theorem C48_large_prime_refuted :
  forall (M W : nat) (c : config), M <= g_prime c -> decode M W (encode c) = Term.
Proof. exact: large_prime. Qed.
Print Assumptions C48_large_prime_refuted.

Example C48_large_case : decode 100 200 (encode (Config 101 1 2 true 2 (text "out") 50)) = Term.
Proof. by vm_compute. Qed.

(** C49: loading what was saved gives the value back and leaves the rest of the archive. *)
Theorem C49_round_trips :
  [/\ forall c rest, load_config (save_config c ++ rest) = Ok (c, rest),
      forall b rest, load_block (save_block b ++ rest) = Ok (b, rest),
      forall bs rest, load_blocks (save_blocks bs ++ rest) = Ok (bs, rest),
      forall ns rest, load_counts (save_counts ns ++ rest) = Ok (ns, rest) &
      forall ts rest, load_texts (save_texts ts ++ rest) = Ok (ts, rest)].
Proof.
by split; [exact: config_round | exact: block_round | exact: blocks_round | exact: counts_round | exact: texts_round].
Qed.
Print Assumptions C49_round_trips.

Example C49_case :
  save_blocks [:: [:: (0, 1); (2, 5)]; [::]] =
    [:: PNat 2; PNat 2; PNat 1; PNat 0; PNat 5; PNat 2; PNat 0] /\
  load_counts (save_counts (3, 4) ++ [:: PBool true]) = Ok ((3, 4), [:: PBool true]).
Proof. by []. Qed.

(** C50, the part that holds: a configuration that passes verification with a prime other than 2 can be
    enumerated.  Full statement: the same for all primes; it fails, see [C50_two_refuted]. *)
Theorem C50_verified_partial :
  forall (W : nat) (dir_ok : bool) (c : config),
    (verify dir_ok c <->
       [/\ dir_ok, g_prime c <> 0, g_exponent c <> 0, g_genus c <> 0 & g_count c <> 0 /\ g_package c <> 0]) /\
    (verify dir_ok c -> 2 < g_prime c -> 2 * g_prime c ^ g_exponent c <= W ->
     exists ci N blocks,
       [/\ mk_citer (g_prime c) (g_prime c ^ g_exponent c) (g_genus c) (g_marked c) (g_package c) = Ok ci,
           ~~ ci_is_end ci, size blocks != 0 &
           forall fuel, N <= fuel -> ci_iterate W (ci_as_block W) fuel ci = Ok blocks]).
Proof. exact: verified. Qed.
Print Assumptions C50_verified_partial.

Example C50_case :
  verify true config_case /\ ~~ verify true (Config 7 1 2 true 3 (text "q7g2") 0) /\
  match mk_citer 3 3 1 true 4 with
  | Ok ci => if ci_iterate 100 (ci_as_block 100) 100 ci is Ok bs then size bs = 5 else False
  | _ => False
  end.
Proof. by vm_compute. Qed.

(** C50 is false: prime 2 passes verification, and then the enumeration ends the program. *)
Theorem C50_two_refuted :
  forall (exponent genus count package : nat) (marked : bool) (path : seq char),
    0 < exponent -> 0 < genus -> 0 < count -> 0 < package ->
    let c := Config 2 exponent genus marked count path package in
    verify true c /\
    mk_citer (g_prime c) (g_prime c ^ g_exponent c) (g_genus c) (g_marked c) (g_package c) = Term.
Proof. exact: verified_two. Qed.
Print Assumptions C50_two_refuted.

Example C50_two_case : verify true (Config 2 3 2 false 2 (text "out") 100).
Proof. by []. Qed.
