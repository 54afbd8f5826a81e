(** What C80 speaks about. *)
Set Warnings "-notation-overridden,-ambiguous-paths".
From mathcomp Require Import all_ssreflect ssralg finalg.
From Verif Require Import Res FinField Tables TablesSpec CurveSpec Curve PointSpec Queue.

Set Implicit Arguments.
Unset Strict Implicit.
Unset Printing Implicit Defensive.

(** The table [t] is that of a field that extends the one of the curves, and the machine words are large enough for it. *)
Definition usable (F : finFieldType) (g : F) (p r W M : nat) (t : redtable) : Prop :=
  exists (L : finFieldType) (G : L) (emb : {rmorphism F -> L}),
    [/\ [/\ r %| rt_exponent t & #|L| = p ^ rt_exponent t], 2 * #|L| <= W, 2 * #|L| <= M, compatible emb g G &
        table_of p (rt_exponent t) G t].

(** The device reaches the coefficients of every call before [enqueue] returns: [sched call] are the numbers of commands it executes
    meanwhile, and [m] commands wait at the start. *)
Definition in_time (m : nat) (sched : nat -> nat * nat) : Prop :=
  forall call, (if call == 0 then m else 0) < (sched call).1 + (sched call).2.

(** When the next configuration comes, the device has copied the tables: it has executed the commands that waited, or a curve was
    counted, which waits for the device. *)
Definition caught_up (e : epoch) : Prop :=
  2 * e_tables e <= e_idle e \/
  0 < e_tables e /\ exists c curves, e_curves e = c :: curves /\ c_points c = [::].

(** The tables of the configurations, one after the other. *)
Fixpoint split_tables (tables : seq redtable) (es : seq epoch) : seq (seq redtable) :=
  if es is e :: es' then take (e_tables e) tables :: split_tables (drop (e_tables e) tables) es' else [::].
