(** Specification vocabulary for the tables: what an index means and what FLINT's
    coordinates are assumed to satisfy. *)
Set Warnings "-notation-overridden,-ambiguous-paths".
From mathcomp Require Import all_ssreflect ssralg finalg.
From Verif Require Import FinField.

Set Implicit Arguments.
Unset Strict Implicit.
Unset Printing Implicit Defensive.
Import GRing.Theory.
Local Open Scope ring_scope.

(** The element an index stands for: [g^i], and zero for the index [q-1]. *)
Definition elt_of (F : finFieldType) (g : F) (i : nat) : F :=
  if i == #|F|.-1 then 0 else g ^+ i.

(** Contract of FLINT's coordinates [nmod_poly_get_coeff_ui] with respect to the basis
    [1, T, ..., T^(r-1)] over the prime field: they are residues, determine the element, and
    adding one changes the first coordinate only. *)
Definition coordinates (F : finFieldType) (p r : nat) (coeff : F -> nat -> nat) : Prop :=
  [/\ (0 < r)%N /\ (1 < p)%N, #|F| = (p ^ r)%N,
      forall x i, (coeff x i < p)%N,
      forall x y, (forall i, (i < r)%N -> coeff x i = coeff y i) -> x = y &
      [/\ forall i, coeff 0 i = 0%N,
          forall x, coeff (1 + x) 0%N = ((coeff x 0%N).+1 %% p)%N &
          forall x i, coeff (1 + x) i.+1 = coeff x i.+1]].
