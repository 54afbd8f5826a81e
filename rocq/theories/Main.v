(** Model of the function [main] of /repo/src/executables/threaded.cc:46-151 and /repo/src/executables/mpi.cc:47-160,
    which agree except for the start of MPI and the type of the worker pool.

    The command line is given as the options that were found; boost::program_options itself is not modelled.  Messages on the
    standard error stream are left out. *)
Set Warnings "-notation-overridden,-ambiguous-paths".
From Coq Require Import String.
From mathcomp Require Import all_ssreflect ssralg ssrnum ssrint.
From Verif Require Import Res OMap Store Text Config BlockIter CurveIter Pool Standalone Worker.

Set Implicit Arguments.
Unset Strict Implicit.
Unset Printing Implicit Defensive.

(** The options that decide what is done, /repo/src/executables/threaded.cc:55-64 (/repo/src/executables/mpi.cc:63-72). *)
Record options := Options { o_help : bool; o_config : option (seq char); o_output : option (seq char) }.

(** The file read by [YAML::LoadFile], /repo/src/executables/threaded.cc:106 (/repo/src/executables/mpi.cc:114): the entries of the mapping at
    the top, and the items of the entry "Moduli" if there is one, /repo/src/executables/threaded.cc:124-128
    (/repo/src/executables/mpi.cc:132-136); an item that is not a mapping is [None].  An entry "Moduli" that is a scalar has no items;
    one that is a mapping, and a file without a mapping at the top, are not modelled. *)
Record document := Document { y_top : ynode; y_moduli : option (seq (option ynode)) }.

(** What the program gets from the file system and from yaml-cpp: [is_directory(p) || create_directories(p)]
    (/repo/src/executables/threaded.cc:95 and /repo/src/config/config_node.hh:58), [is_regular_file]
    (/repo/src/executables/threaded.cc:102), [YAML::LoadFile] (/repo/src/executables/threaded.cc:106) and [canonical] (/repo/src/executables/threaded.cc:137).  [Term] is an exception.
    Simplification: the answers do not change while the program runs. *)
Record world := World
  { w_mkdir : seq char -> res bool; w_regular : seq char -> bool; w_load : seq char -> res document;
    w_canonical : seq char -> res (seq char) }.

(** How the program ends, /repo/src/executables/threaded.cc:78-151: [return], or [std::terminate] because of an exception
    that is not caught, after which the pool is not destroyed. *)
Inductive ending := Return of nat | Killed.

(** [Refused]: the program returns before it has a worker pool (/repo/src/executables/threaded.cc:78-120).  [Ran]: the
    configurations passed to update_config, the calls of the worker pool and the end. *)
Inductive outcome := Refused of nat | Ran of seq config & seq cmd & ending.

(** The keys of /repo/src/executables/threaded.cc:110 and 124. *)
Definition k_store := text "StoreType".

(** [operator/] of boost::filesystem, version 3, as used by prepend_output_path,
    /repo/src/config/config_node.hh:63-66. *)
Definition slash : char := 47.
Definition path_append (p q : seq char) : seq char :=
  if q is c :: _ then
    if p is [::] then q else if (c == slash) || (last c p == slash) then p ++ q else p ++ slash :: q
  else p.
(** prepend_output_path, /repo/src/config/config_node.hh:63-66. *)
Definition prepend_output_path (root : seq char) (c : config) : config :=
  Config (g_prime c) (g_exponent c) (g_genus c) (g_marked c) (g_count c) (path_append root (g_path c)) (g_package c).

Section Main.
(** [M] and [W] are 2^31 and 2^32; [dir] numbers the directories that paths stand for. *)
Variables (M W : nat) (dir : seq char -> nat) (w : world).

(** [node.as<ConfigNode>()], /repo/src/executables/threaded.cc:125 and 128: throws unless decode returns true. *)
Definition as_config (n : option ynode) : res config :=
  if n is Some n then o <- decode M W n ;; (if o is Some c then Ok c else Term) else Term.

(** The list [config], /repo/src/executables/threaded.cc:123-128 (/repo/src/executables/mpi.cc:131-136). *)
Definition main_configs (doc : document) : res (seq config) :=
  if y_moduli doc is Some ns then mapM as_config ns
  else c <- as_config (Some (y_top doc)) ;; Ok [:: c].

(** The store type, /repo/src/executables/threaded.cc:109-120 (/repo/src/executables/mpi.cc:117-128): is it known? *)
Definition store_known (doc : document) : res bool :=
  if yfind (y_top doc) k_store is None then Ok true
  else t <- as_string (yfind (y_top doc) k_store) ;; Ok (t == text "EC").

(** [node.verify()], /repo/src/executables/threaded.cc:138 and /repo/src/config/config_node.hh:54-61: the directory is not
    created if one of the numbers before is zero. *)
Definition check (c : config) : res bool :=
  if [|| g_prime c == 0, g_exponent c == 0, g_genus c == 0 | g_count c == 0] then Ok false
  else d <- w_mkdir w (g_path c) ;; Ok (verify d c).

(** A statement of the loop /repo/src/executables/threaded.cc:136-148; an exception ends the program. *)
Definition guarded (T : Type) (r : res T) (k : T -> res (seq config * seq cmd * ending))
    : res (seq config * seq cmd * ending) :=
  if r is Term then Ok ([::], [::], Killed) else bind r k.

(** The loop over the configurations, /repo/src/executables/threaded.cc:136-148 (/repo/src/executables/mpi.cc:144-157); the destructor of the
    pool is called by both [return] statements.  [i] is the number of the configuration.  The construction of the
    FqElementTable (/repo/src/executables/threaded.cc:144) is not repeated here, since it throws only where the one of the worker threads does (Tables.v). *)
Fixpoint main_loop (fuel : nat) (out : seq char) (i : nat) (cs : seq config)
    : res (seq config * seq cmd * ending) :=
  if cs is c :: cs' then
    guarded (w_canonical w out) (fun root =>
    let c := prepend_output_path root c in
    guarded (check c) (fun ok =>
    if ~~ ok then Ok ([::], [:: CDestroy], Return 1)
    else
      let call := CConfig (dir (g_path c)) i in
      let it := mk_citer (g_prime c) (g_prime c ^ g_exponent c) (g_genus c) (g_marked c) (g_package c) in
      if it is Term then Ok ([:: c], [:: call], Killed)
      else
        it <- it ;;
        bs <- ci_iterate W (ci_as_block W) fuel it ;;
        x <- main_loop fuel out i.+1 cs' ;;
        Ok (c :: x.1.1, call :: [seq CAssign b | b <- bs] ++ x.1.2, x.2)))
  else Ok ([::], [:: CDestroy], Return 0).

(** [main], /repo/src/executables/threaded.cc:78-151 (/repo/src/executables/mpi.cc:86-160, on the process with rank 0). *)
Definition main (fuel : nat) (o : options) : res outcome :=
  if o_help o then Ok (Refused 0)
  else if o_config o is Some config_file then
    if o_output o is Some output_path then
      created <- w_mkdir w output_path ;;
      if ~~ created then Ok (Refused 1)
      else if ~~ w_regular w config_file then Ok (Refused 1)
      else
        doc <- w_load w config_file ;;
        known <- store_known doc ;;
        if ~~ known then Ok (Refused 1)
        else
          cs <- main_configs doc ;;
          x <- main_loop fuel output_path 0 cs ;;
          Ok (Ran x.1.1 x.1.2 x.2)
    else Ok (Refused 1)
  else Ok (Refused 1).
End Main.
