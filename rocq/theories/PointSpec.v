(** Specification vocabulary for point counts: the points of [y^2 = f(x)] over a finite field,
    extensions of the base field, and what a reduction table has to contain. *)
Set Warnings "-notation-overridden,-ambiguous-paths".
From mathcomp Require Import all_ssreflect ssralg poly polydiv finalg.
From Verif Require Import FinField Tables TablesSpec Curve.

Set Implicit Arguments.
Unset Strict Implicit.
Unset Printing Implicit Defensive.
Import GRing.Theory.
Local Open Scope ring_scope.

Section Points.
Variable L : finFieldType.
Implicit Type f : {poly L}.

(** Affine points of [y^2 = f(x)]. *)
Definition affine_points f : nat := #|[set xy : L * L | xy.2 ^+ 2 == f.[xy.1]]|.

(** Points at infinity of the smooth model: one for odd degree, otherwise one for each square
    root of the leading coefficient. *)
Definition infinite_points f : nat :=
  if odd (size f).-1 then 1%N else #|[set s : L | s ^+ 2 == lead_coef f]|.

(** All points of the smooth model, and those fixed by [y -> -y]. *)
Definition curve_points f : nat := (affine_points f + infinite_points f)%N.
Definition ramified_points f : nat := (#|[set x : L | root f x]| + odd (size f).-1)%N.

(** The pair reported by the program: (points not fixed by the involution, points fixed). *)
Definition true_counts f : nat * nat := ((curve_points f - ramified_points f)%N, ramified_points f).

(** The incrementation table with respect to the generator [G]. *)
Definition increments (G : L) (inc : seq nat) : Prop :=
  size inc = #|L| /\ forall i, (i < #|L|)%N ->
    (nth 0%N inc i < #|L|)%N /\ elt_of G (nth 0%N inc i) = 1 + elt_of G i.

(** The reduction table of the field [L] of order [p^k] with respect to [G]. *)
Definition table_of (p k : nat) (G : L) (t : redtable) : Prop :=
  [/\ rt_prime t = p, rt_exponent t = k, rt_power t = #|L|,
      rt_red t = exponent_reduction_table #|L| & increments G (rt_inc t)].
End Points.

(** The embedding [emb] sends the generator [g] to the norm-compatible power of the generator
    [G]; this is what FLINT's Conway polynomials provide. *)
Definition compatible (F L : finFieldType) (emb : {rmorphism F -> L}) (g : F) (G : L) : Prop :=
  generator G /\ emb g = G ^+ (#|L|.-1 %/ #|F|.-1).

(** A curve over [F] as produced by the constructor: [g] is the generator of the element table,
    all coefficients are valid indices, the leading one is not zero, and the degree is positive
    and fits the machine word. *)
Definition curve_over (F : finFieldType) (g : F) (p r W : nat) (c : curve) : Prop :=
  [/\ [/\ generator g, odd #|F|, (1 < p)%N, (0 < r)%N & #|F| = (p ^ r)%N],
      [/\ c_prime c = p, c_exponent c = r & c_power c = #|F|],
      all (fun x => (x < #|F|)%N) (c_coeffs c),
      last 0%N (c_coeffs c) != #|F|.-1 &
      (1 < size (c_coeffs c) < W)%N].

(** The calls that count points: [count] with a reduction table, or one of the two naive
    functions, which work in the field [L] with the distinguished element [G]. *)
Inductive count_call : Type :=
  | CallCount of redtable
  | CallNaive (L : finFieldType) (G : L) of nat.

Definition run_call (W : nat) (c : curve) (call : count_call) :=
  match call with
  | CallCount t => count W c t
  | CallNaive L G k => count_naive G W c k
  end.

Definition call_exponent (call : count_call) : nat :=
  match call with
  | CallCount t => rt_exponent t
  | CallNaive L G k => k
  end.

(** [L] with generator [G] is an extension of [F] of order [p^k], small enough for the machine
    word, whose generator is compatible with that of [F]. *)
Definition extension_of (F : finFieldType) (g : F) (p r W k : nat) (L : finFieldType) (G : L) : Prop :=
  [/\ (0 < k)%N, (r %| k)%N, #|L| = (p ^ k)%N, (2 * #|L| + 2 < W)%N &
      exists emb : {rmorphism F -> L}, compatible emb g G].

Definition valid_call (F : finFieldType) (g : F) (p r W : nat) (call : count_call) : Prop :=
  match call with
  | CallCount t => exists (L : finFieldType) (G : L),
      extension_of g p r W (rt_exponent t) G /\ table_of p (rt_exponent t) G t
  | CallNaive L G k => extension_of g p r W k G
  end.
