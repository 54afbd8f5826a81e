(** Vocabulary for statements about the program as a whole. *)
Set Warnings "-notation-overridden,-ambiguous-paths".
From mathcomp Require Import all_ssreflect ssralg ssrnum ssrint poly finalg.
From Verif Require Import Res FinField CurveSpec OMap Store StoreSpec Text Files FilesSpec Pool Standalone StandaloneSpec
  Mpi MpiSpec Config Worker WorkerSpec Main.

Set Implicit Arguments.
Unset Strict Implicit.
Unset Printing Implicit Defensive.

(** The configurations in a file: those of the list, if there is one, and otherwise the one at the top. *)
Definition items (doc : document) : seq (option ynode) :=
  if y_moduli doc is Some ns then ns else [:: Some (y_top doc)].

(** The program goes on with a configuration, or reports it as incorrect. *)
Definition accepts (w : world) (c : config) : Prop :=
  [/\ 0 < g_prime c, 0 < g_exponent c, 0 < g_genus c & 0 < g_count c] /\
  w_mkdir w (g_path c) = Ok true /\ 0 < g_package c.
Definition rejects (w : world) (c : config) : Prop :=
  0 = g_prime c * g_exponent c * g_genus c * g_count c * g_package c \/ w_mkdir w (g_path c) = Ok false.

(** The pool has made all calls: it was destroyed, or it waits for a call that does not come because the program is
    about to be terminated. *)
Definition through (e : ending) (s : state) : Prop :=
  if e is Killed then s_pc s = PNext /\ prog s = [::] else s_pc s = PDone.
Definition mthrough (e : ending) (s : mstate) : Prop :=
  if e is Killed then m_pc s = QNext /\ m_prog s = [::] else m_pc s = QDone.

(** The configurations whose results must be complete then: all, but not the last one if the program is terminated. *)
Definition promised (e : ending) (cs : seq config) (i : nat) : bool :=
  if e is Killed then i.+1 < size cs else i < size cs.

Section Runs.
Variables (W S M : nat).
Variable flint : nat -> nat -> flint_field.
Variable is_squarefree : forall p r, seq (ff_field (flint p r)) -> bool.
Variable factor : nat -> nat -> seq nat -> seq (nat * nat).
Variable dir : seq char -> nat.

(** Configurations for which everything is computed. *)
Definition sound (c : config) : Prop :=
  [/\ admissible M c, flint_fields flint c & flint_polys is_squarefree factor c].

(** More fuel does not change the blocks of a configuration and what is computed for them. *)
Definition enough (fuel : nat) (c : config) : Prop :=
  forall f, fuel <= f -> config_blocks W f c = config_blocks W fuel c /\
    forall bs b, config_blocks W fuel c = Ok bs -> b \in bs ->
      work_block W S is_squarefree factor f c b = work_block W S is_squarefree factor fuel c b.

(** The configurations a run works on have different directories, and are such that all is computed or the prime is
    2, at which the program stops. *)
Definition proper (fuel : nat) (cs : seq config) : Prop :=
  uniq [seq dir (g_path c) | c <- cs] /\
  forall i, i < size cs -> (sound (nth c0 cs i) \/ g_prime (nth c0 cs i) = 2) /\ enough fuel (nth c0 cs i).

(** Configurations with the same directory are the same. *)
Definition agree (cs cs' : seq config) : Prop :=
  forall i i', i < size cs -> i' < size cs' ->
    dir (g_path (nth c0 cs i)) = dir (g_path (nth c0 cs' i')) -> nth c0 cs i = nth c0 cs' i'.

(** Files that can be on disk when a run with the configurations [cs] starts: those of others, and what was left by
    runs of either program, each with its own command line and configuration file, which ended in one way or the
    other or were killed. *)
Inductive earlier (cs : seq config) : seq file -> Prop :=
  | EarlierOther fs :
      (forall f i, List.In f fs -> i < size cs -> f_dir f <> dir (g_path (nth c0 cs i))) -> earlier cs fs
  | EarlierThreads fs w o fuel cs' calls e kinds acts s : earlier cs fs ->
      main M W dir w fuel o = Ok (Ran cs' calls e) -> proper fuel cs' -> agree cs cs' ->
      run (contribution W S is_squarefree factor fuel cs') (start kinds fs calls) acts = Ok s -> earlier cs (files s)
  | EarlierMpi fs w o fuel cs' calls e kinds acts s : earlier cs fs ->
      main M W dir w fuel o = Ok (Ran cs' calls e) -> proper fuel cs' -> agree cs cs' -> 0 < size kinds ->
      mrun (contribution W S is_squarefree factor fuel cs') (mstart kinds fs calls) acts = Ok s ->
      earlier cs (m_files s).

(** Merging the result directory of a configuration gives the right table. *)
Definition counted (c : config) (fs : seq file) : Prop :=
  forall d0 ids cuts d listing, fresh d0 -> replay (dir (g_path c)) fs ids cuts d0 = Ok d ->
    perm_eq listing (names d) ->
  exists T R N, [/\ is_map T,
    forall fuel, N <= fuel -> merge M W fuel d listing = Ok (Some (print_store T, print_record R)) &
    forall (L : nat -> finFieldType) (emb : forall j, {rmorphism field_of flint c -> L j}),
    tower (field_of flint c) L ->
    forall k, st_find T k =
      let n := brute_force (point_key emb (g_count c)) (g_genus c) (g_marked c) k in
      if n == 0 then None else Some n].
End Runs.
