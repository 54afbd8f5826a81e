(** Model of /repo/src/config/config_node.{hh,cc} and of the serialisation of messages,
    /repo/src/utils/serialization_tuple.hh.

    A YAML mapping is the list of its entries; a value is a scalar with its text, or something else.
    A path is its text ([generic_string] and the constructor from a string are inverse to each other on
    POSIX systems).  yaml-cpp reads an [int] from the text of the scalar with [>>], after which only white
    space may follow; it detects the base automatically, so texts with a leading 0 (octal or hexadecimal)
    are not modelled. *)
Set Warnings "-notation-overridden,-ambiguous-paths".
From Coq Require Import String.
From mathcomp Require Import all_ssreflect ssralg ssrnum ssrint.
From Verif Require Import Res OMap Store Text.

Set Implicit Arguments.
Unset Strict Implicit.
Unset Printing Implicit Defensive.

(** ConfigNode, /repo/src/config/config_node.hh:39-51. *)
Record config := Config
  { g_prime : nat; g_exponent : nat; g_genus : nat; g_marked : bool; g_count : nat;
    g_path : seq char; g_package : nat }.

(** ConfigNode::verify, /repo/src/config/config_node.hh:54-61; [dir_ok] is the value of
    [is_directory(result_path) || create_directories(result_path)]. *)
Definition verify (dir_ok : bool) (c : config) : bool :=
  [&& g_prime c != 0, g_exponent c != 0, g_genus c != 0, g_count c != 0, dir_ok & g_package c != 0].

(** ** YAML *)

(** [YAML::Node], as used in /repo/src/config/config_node.cc:54-107. *)
Inductive yvalue := Scalar of seq char | NonScalar.
Definition ynode := seq (seq char * yvalue).

(** [node[key]], /repo/src/config/config_node.cc:84-104; [None] if the key is missing. *)
Fixpoint yfind (n : ynode) (k : seq char) : option yvalue :=
  if n is (k', v) :: n' then if k == k' then Some v else yfind n' k else None.
(** [node[key] = value], /repo/src/config/config_node.cc:61-73, for a key that is not present. *)
Definition yset (n : ynode) (k : seq char) (t : seq char) : ynode := rcons n (k, Scalar t).

(** [as<int>()], /repo/src/config/config_node.cc:90-104: throws for a missing node, for a node that is not a
    scalar and for a text that is not an [int].  The result is an [int]; [M] is 2^31. *)
Definition as_int (M : nat) (v : option yvalue) : res int :=
  if v is Some (Scalar t) then
    let: (st, z) := read_int M (open_text t) None in
    if i_fail st then Term
    else if drop_while is_space (i_rest st) is [::] then (if z is Some z then Ok z else Undef) else Term
  else Term.

(** [as<bool>()], /repo/src/config/config_node.cc:94. *)
Definition true_texts : seq (seq char) :=
  [seq text s | s <- [:: "y"; "Y"; "yes"; "Yes"; "YES"; "true"; "True"; "TRUE"; "on"; "On"; "ON"]%string].
Definition false_texts : seq (seq char) :=
  [seq text s | s <- [:: "n"; "N"; "no"; "No"; "NO"; "false"; "False"; "FALSE"; "off"; "Off"; "OFF"]%string].
Definition as_bool (v : option yvalue) : res bool :=
  if v is Some (Scalar t) then
    if t \in true_texts then Ok true else if t \in false_texts then Ok false else Term
  else Term.

(** [as<string>()], /repo/src/config/config_node.cc:101. *)
Definition as_string (v : option yvalue) : res (seq char) := if v is Some (Scalar t) then Ok t else Term.

(** The keys, /repo/src/config/config_node.cc:61-73. *)
Definition k_prime := text "Prime".
Definition k_exponent := text "PrimeExponent".
Definition k_genus := text "Genus".
Definition k_marked := text "WithMarkedPoint".
Definition k_count := text "CountExponent".
Definition k_path := text "ResultPath".
Definition k_package := text "PackageSize".

(** convert<ConfigNode>::encode, /repo/src/config/config_node.cc:52-76. *)
Definition encode (c : config) : ynode :=
  let n := yset [::] k_prime (dec (g_prime c)) in
  let n := yset n k_exponent (dec (g_exponent c)) in
  let n := yset n k_genus (dec (g_genus c)) in
  let n := yset n k_marked (if g_marked c then text "true" else text "false") in
  let n := if g_count c != g_genus c then yset n k_count (dec (g_count c)) else n in
  let n := yset n k_path (g_path c) in
  yset n k_package (dec (g_package c)).

(** convert<ConfigNode>::decode, /repo/src/config/config_node.cc:78-107; [None] is the value [false].  An [int] is
    converted to [unsigned int] by reduction modulo [W]. *)
Definition decode (M W : nat) (n : ynode) : res (option config) :=
  if ~~ [&& isSome (yfind n k_prime), isSome (yfind n k_exponent), isSome (yfind n k_genus),
            isSome (yfind n k_path) & isSome (yfind n k_package)]
  then Ok None
  else
    prime <- as_int M (yfind n k_prime) ;;
    prime_exponent <- as_int M (yfind n k_exponent) ;;
    genus <- as_int M (yfind n k_genus) ;;
    with_marked_point <- as_bool (yfind n k_marked) ;;
    count_exponent <- (if isSome (yfind n k_count) then as_int M (yfind n k_count) else Ok genus) ;;
    result_path <- as_string (yfind n k_path) ;;
    package_size <- as_int M (yfind n k_package) ;;
    Ok (Some (Config (to_unsigned W prime) (to_unsigned W prime_exponent) (to_unsigned W genus)
                with_marked_point (to_unsigned W count_exponent) result_path (to_unsigned W package_size))).

(** ** Serialisation *)

(** An archive is the sequence of the primitive values put into it with [ar & x] (/repo/src/config/config_node.hh:83-98); loading takes them out in
    the same order.  Loading a value of another type than was saved is undefined. *)
Inductive prim := PNat of nat | PBool of bool | PString of seq char.
Definition archive := seq prim.

(** [ar & x] when loading, for the types used in /repo/src/config/config_node.hh:72-101 and
    /repo/src/utils/serialization_tuple.hh:34-61. *)
Definition load_nat (a : archive) : res (nat * archive) := if a is PNat n :: a' then Ok (n, a') else Undef.
Definition load_bool (a : archive) : res (bool * archive) := if a is PBool b :: a' then Ok (b, a') else Undef.
Definition load_string (a : archive) : res (seq char * archive) :=
  if a is PString s :: a' then Ok (s, a') else Undef.

(** serialize of ConfigNode, /repo/src/config/config_node.hh:72-101, saving and loading. *)
Definition save_config (c : config) : archive :=
  [:: PNat (g_prime c); PNat (g_exponent c); PNat (g_genus c); PBool (g_marked c); PNat (g_count c);
      PString (g_path c); PNat (g_package c)].
Definition load_config (a : archive) : res (config * archive) :=
  x1 <- load_nat a ;;
  x2 <- load_nat x1.2 ;;
  x3 <- load_nat x2.2 ;;
  x4 <- load_bool x3.2 ;;
  x5 <- load_nat x4.2 ;;
  x6 <- load_string x5.2 ;;
  x7 <- load_nat x6.2 ;;
  Ok (Config x1.1 x2.1 x3.1 x4.1 x5.1 x6.1 x7.1, x7.2).

(** serialize of tuples, /repo/src/utils/serialization_tuple.hh:34-61, for pairs: the last component comes
    first. *)
Definition save_pair (A B : Type) (sa : A -> archive) (sb : B -> archive) (x : A * B) : archive :=
  sb x.2 ++ sa x.1.
Definition load_pair (A B : Type) (la : archive -> res (A * archive)) (lb : archive -> res (B * archive))
    (a : archive) : res ((A * B) * archive) :=
  y <- lb a ;; x <- la y.2 ;; Ok ((x.1, y.1), x.2).

(** Boost's serialisation of a vector (/repo/src/worker_pool/mpi.cc:131,201 and
    /repo/src/worker_pool/mpi_worker.cc:66,102): the size and the items. *)
Definition save_vector (A : Type) (sa : A -> archive) (xs : seq A) : archive :=
  PNat (size xs) :: flatten [seq sa x | x <- xs].
Fixpoint load_items (A : Type) (la : archive -> res (A * archive)) (n : nat) (a : archive)
    : res (seq A * archive) :=
  if n is n'.+1 then
    x <- la a ;; xs <- load_items la n' x.2 ;; Ok (x.1 :: xs.1, xs.2)
  else Ok ([::], a).
Definition load_vector (A : Type) (la : archive -> res (A * archive)) (a : archive) : res (seq A * archive) :=
  n <- load_nat a ;; load_items la n.1 n.2.

(** The messages: a block ([vector<tuple<unsigned, unsigned>>], /repo/src/worker_pool/mpi.cc:131,141), a list of blocks
    (201), numbers of idle threads (173) and the texts of a flushed store (262). *)
Definition save_nat (n : nat) : archive := [:: PNat n].
Definition save_string (s : seq char) : archive := [:: PString s].
Definition save_block : block -> archive := save_vector (save_pair save_nat save_nat).
Definition load_block : archive -> res (block * archive) := load_vector (load_pair load_nat load_nat).
Definition save_blocks : seq block -> archive := save_vector save_block.
Definition load_blocks : archive -> res (seq block * archive) := load_vector load_block.
Definition save_counts : nat * nat -> archive := save_pair save_nat save_nat.
Definition load_counts : archive -> res ((nat * nat) * archive) := load_pair load_nat load_nat.
Definition save_texts : seq char * seq char -> archive := save_pair save_string save_string.
Definition load_texts : archive -> res ((seq char * seq char) * archive) := load_pair load_string load_string.
