(** Specification vocabulary for BlockIterator: what the constructor arguments describe.
    Independent of the iteration model; only map lookup is shared. *)
Set Warnings "-notation-overridden,-ambiguous-paths".
From mathcomp Require Import all_ssreflect.
From Verif Require Import Res.

Set Implicit Arguments.
Unset Strict Implicit.
Unset Printing Implicit Defensive.

(** [v] lies in the box [b], a vector of half-open ranges. *)
Definition in_box (b : seq (nat * nat)) (v : seq nat) : bool :=
  all2 (fun lu x => lu.1 <= x < lu.2) b v.

(** Number of integer vectors in a box. *)
Definition box_volume (b : seq (nat * nat)) : nat := \prod_(lu <- b) (lu.2 - lu.1).

(** What selects the choices of a dependent set coupled to index [j]: the ordinal of the
    current value within the set attached to [j], or the value itself when [j] carries a
    block. *)
Definition coupling (sets : smap (seq nat)) (v : seq nat) (j : nat) : nat :=
  if sm_find sets j is Some s then index (nth 0 v j) s else nth 0 v j.

(** The positions described by blocks (index |-> range), sets (index |-> allowed values) and
    dependent sets (index |-> allowed values as a function of another index). *)
Definition described (length : nat) (blocks : smap (nat * nat)) (sets : smap (seq nat))
    (deps : smap (nat * smap (seq nat))) (v : seq nat) : bool :=
  [&& size v == length,
      all (fun kb => kb.2.1 <= nth 0 v kb.1 < kb.2.2) blocks,
      all (fun ks => nth 0 v ks.1 \in ks.2) sets &
      all (fun kd => if sm_find kd.2.2 (coupling sets v kd.2.1) is Some s
                     then nth 0 v kd.1 \in s else false) deps].

(** A list of values that can be used for one index: non-empty, without repetition, and
    every value and the length are representable. *)
Definition values_ok (W : nat) (s : seq nat) : bool :=
  [&& s != [::], uniq s, size s < W & all (fun x => x.+1 < W) s].

(** Documented preconditions of the constructor (/repo/src/block_iterator.cc:59-60 and 68) together
    with what makes [unsigned int] arithmetic exact: every index carries exactly one block,
    set or dependent set; none is empty; dependent sets are coupled to sets, or to blocks if
    the package size is one. *)
Definition args_ok (W length : nat) (blocks : smap (nat * nat)) (package_size : nat)
    (sets : smap (seq nat)) (deps : smap (nat * smap (seq nat))) : Prop :=
  [/\ [/\ sm_wf blocks, sm_wf sets & sm_wf deps],
      perm_eq (sm_keys blocks ++ sm_keys sets ++ sm_keys deps) (iota 0 length),
      0 < package_size,
      (forall ix l u, (ix, (l, u)) \in blocks -> l < u /\ u + minn package_size (u - l) <= W) &
      (forall ix s, (ix, s) \in sets -> values_ok W s) /\
      (forall ix jx m, (ix, (jx, m)) \in deps ->
         (exists2 s, (jx, s) \in sets &
            forall k, k < size s -> exists2 c, sm_find m k = Some c & values_ok W c) \/
         package_size = 1 /\
         (exists l u, (jx, (l, u)) \in blocks /\
            forall k, l <= k < u -> exists2 c, sm_find m k = Some c & values_ok W c))].
