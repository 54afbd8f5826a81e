(** Specification vocabulary for whole runs: contracts of FLINT, admissible configurations, counting
    polynomials by brute force, and the directory written by an execution. *)
Set Warnings "-notation-overridden,-ambiguous-paths".
From mathcomp Require Import all_ssreflect ssralg ssrint poly polydiv finalg.
From Verif Require Import Res FinField TablesSpec CurveSpec PointSpec RamSpec OMap Store Text Files FilesSpec Config Worker Standalone.

Set Implicit Arguments.
Unset Strict Implicit.
Unset Printing Implicit Defensive.
Import GRing.Theory.
Local Open Scope ring_scope.

(** A configuration with an odd prime, positive parameters and numbers that fit an [int]; [M] is 2^31. *)
Definition admissible (M : nat) (c : config) : Prop :=
  [/\ prime (g_prime c) && odd (g_prime c),
      [&& 0 < g_exponent c, 0 < g_genus c, 0 < g_count c & 0 < g_package c]%N,
      ((g_prime c ^ g_exponent c) ^ g_count c + 1 < M)%N & (2 * g_genus c + 3 < M)%N].

(** A default for [nth]. *)
Definition c0 : config := Config 0 0 0 false 0 [::] 0.

Section Flint.
Variable flint : nat -> nat -> flint_field.
Variable is_squarefree : forall p r, seq (ff_field (flint p r)) -> bool.
Variable factor : nat -> nat -> seq nat -> seq (nat * nat).

(** The field of a configuration and the element [fq_nmod_gen] of it. *)
Definition field_of (c : config) : finFieldType := ff_field (flint (g_prime c) (g_exponent c)).
Definition gen_of (c : config) : field_of c := @ff_cand (flint (g_prime c) (g_exponent c)) 0%N.

(** Contract of FLINT's fields: the [fq_nmod_gen] of the fields of order [q], [q^2], ..., [q^n] are
    generators and compatible, as Conway polynomials provide, and elements have coordinates with
    respect to a basis that contains 1. *)
Definition flint_fields (c : config) : Prop :=
  #|field_of c| = (g_prime c ^ g_exponent c)%N /\ generator (gen_of c) /\
  forall j, (0 < j <= g_count c)%N ->
    let K := flint (g_prime c) (j * g_exponent c) in
    coordinates (g_prime c) (j * g_exponent c) (@ff_coeff K) /\
    exists emb : {rmorphism field_of c -> ff_field K}, compatible emb (gen_of c) (@ff_cand K 0%N).

(** Contract of FLINT's functions for polynomials. *)
Definition flint_polys (c : config) : Prop :=
  (forall cs : seq (field_of c), Poly cs != 0 ->
     is_squarefree (p := g_prime c) (r := g_exponent c) cs = squarefree (Poly cs)) /\
  (forall v, all (fun x => (x < #|field_of c|)%N) v -> (1 < size v)%N -> last 0%N v != #|field_of c|.-1 ->
     factorisation (poly_of (gen_of c) v) (factor (g_prime c) (g_exponent c) v)).
End Flint.

(** A tower: for every [j] an extension of degree [j+1]. *)
Definition tower (F : finFieldType) (L : nat -> finFieldType) : Prop := forall j, #|L j| = (#|F| ^ j.+1)%N.

(** The key of [y^2 = f(x)] by definition: degrees of the ramification points, and for the first [n]
    extensions the difference of [#|L|+1] and the number of points. *)
Definition point_key (F : finFieldType) (L : nat -> finFieldType) (emb : forall j, {rmorphism F -> L j})
    (n : nat) (f : {poly F}) : key :=
  (ramification f, mkseq (fun j => (#|L j| + 1)%:Z - (curve_points (map_poly (emb j) f))%:Z) n).

(** The number of squarefree polynomials of the requested degrees with a given key. *)
Definition brute_force (F : finFieldType) (key_of : {poly F} -> key) (genus : nat) (marked : bool) (k : key) : nat :=
  (\sum_(d <- requested_degrees genus marked)
     seq.count (fun f => squarefree f && (key_of f == k)) (polys F d))%N.

(** What an execution that wrote the files [fs] leaves in the result directory number [dir]: each file
    is written under a new name (/repo/src/store/file_store.cc:59-96), [ids] being the numbers drawn; a
    file without record comes from a process that was killed before the record was written, when any part
    of the store file may have been written, [cuts] being the lengths. *)
Definition write_pair (d : directory) (f : file) (ids : seq (seq char)) (cut : nat) : res directory :=
  id <- new_stem d ids ;;
  Ok (if f_record f is Some r
      then write_file (write_file d (id, store_ext) (print_store (f_store f))) (id, record_ext) (print_record r)
      else write_file d (id, store_ext) (take cut (print_store (f_store f)))).
Fixpoint replay (dir : nat) (fs : seq file) (ids : nat -> seq (seq char)) (cuts : nat -> nat) (d : directory)
    : res directory :=
  if fs is f :: fs' then
    d <- (if f_dir f == dir then write_pair d f (ids (size fs')) (cuts (size fs')) else Ok d) ;;
    replay dir fs' ids cuts d
  else Ok d.

(** A directory as the program finds it at first: no record files, and no entries with the extensions
    of the program that are not files. *)
Definition fresh (d : directory) : Prop :=
  [/\ uniq (names d), plain d & forall f, f \in names d -> f.2 != record_ext].
