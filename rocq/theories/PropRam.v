(** Properties C19 and C20: ramification types and twists.  Statements use FinField.v, CurveSpec.v
    ([squarefree]), PointSpec.v, RamSpec.v and the model functions only. *)
Set Warnings "-notation-overridden,-ambiguous-paths".
From mathcomp Require Import all_ssreflect ssralg ssrint poly polydiv finalg zmodp zify.
From Verif Require Import Res FinField Tables TablesSpec CurveSpec Curve PointSpec CurveHistory RamSpec Ramify
  Store TwistProofs Cases PropCurve.

Set Implicit Arguments.
Unset Strict Implicit.
Unset Printing Implicit Defensive.
Import GRing.Theory.
Local Open Scope ring_scope.

(** The cases below: [y^2 = x^3 - x] over the field with five elements, and its twist by 2. *)
Definition e5 := Curve 5 1 5 [:: 4; 2; 4; 0]%N [::].
Definition d5 := Curve 5 1 5 [:: 4; 3; 4; 1]%N [::].
Definition factor5 (_ : seq nat) : seq (nat * nat) := nseq 3 (1, 1)%N.
Example e5_over : curve_over (2%:R : 'F_5) 5 1 1000 e5.
Proof. by split; rewrite ?F5_card //; split; rewrite ?F5_card //; exact: F5_gen. Qed.
Example d5_over : curve_over (2%:R : 'F_5) 5 1 1000 d5.
Proof. by split; rewrite ?F5_card //; split; rewrite ?F5_card //; exact: F5_gen. Qed.
Example e5_split : size (poly_of (2%:R : 'F_5) (c_coeffs e5)) = 4%N /\
  all (root (poly_of (2%:R : 'F_5) (c_coeffs e5))) [:: 0; 1; -1].
Proof.
split; first exact: (rhs_size e5_over).
by rewrite /all /root /poly_of !horner_Poly /elt_of F5_card; vm_compute.
Qed.
Example d5_split : size (poly_of (2%:R : 'F_5) (c_coeffs d5)) = 4%N /\
  all (root (poly_of (2%:R : 'F_5) (c_coeffs d5))) [:: 0; 1; -1].
Proof.
split; first exact: (rhs_size d5_over).
by rewrite /all /root /poly_of !horner_Poly /elt_of F5_card; vm_compute.
Qed.
Example t5_valid : valid_call (2%:R : 'F_5) 5 1 1000 (CallCount t5).
Proof.
exists [finFieldType of 'F_5], (2%:R); split; last exact: t5_table.
split=> //; rewrite ?F5_card //; exists [rmorphism of idfun]; split; first exact: F5_gen.
by rewrite F5_card.
Qed.

(** C19: after any sequence of counting calls, the ramification type is the list of degrees of
    the closed ramification points; [factor] is FLINT's factorisation. *)
Theorem C19_ramification_type :
  forall (F : finFieldType) (g : F) (p r W : nat) (factor : seq nat -> seq (nat * nat)) (c : curve)
         (calls : seq count_call),
    curve_over g p r W c -> c_points c = [::] -> (2 * size (c_coeffs c) < W)%N ->
    squarefree (poly_of g (c_coeffs c)) ->
    factorisation (poly_of g (c_coeffs c)) (factor (c_coeffs c)) ->
    (forall call, List.In call calls -> valid_call g p r W call) ->
    exists c',
      [/\ foldM (run_call W) c calls = Ok c',
          ramification_type W factor c' = ramification (poly_of g (c_coeffs c)) &
          sumn (ramification (poly_of g (c_coeffs c))) = (2 * genus W c' + 2)%N].
Proof. exact: ram_history. Qed.
Print Assumptions C19_ramification_type.

(** Before and after counting over the field with five elements. *)
Example C19_case :
  [/\ curve_over (2%:R : 'F_5) 5 1 1000 e5, squarefree (poly_of (2%:R : 'F_5) (c_coeffs e5)),
      factorisation (poly_of (2%:R : 'F_5) (c_coeffs e5)) (factor5 (c_coeffs e5)),
      valid_call (2%:R : 'F_5) 5 1 1000 (CallCount t5) &
      ramification_type 1000 factor5 e5 = [:: 1; 1; 1; 1]%N /\
      exists c', run_call 1000 e5 (CallCount t5) = Ok c' /\
        ramification_type 1000 (fun _ => [::]) c' = [:: 1; 1; 1; 1]%N].
Proof.
have [Hs Hr] := e5_split; split.
- exact: e5_over.
- exact: (@split_squarefree [finFieldType of 'F_5] _ [:: 0; 1; -1] Hs Hr isT).
- exact: (@split_factorisation [finFieldType of 'F_5] _ [:: 0; 1; -1] Hs Hr isT).
- exact: t5_valid.
- by split; [vm_compute|eexists; split; vm_compute; reflexivity].
Qed.

(** C20: the key of the quadratic twist by a non-square is the twisted key, whatever calls
    counted the same extensions of both curves. *)
Theorem C20_twist :
  forall (F : finFieldType) (g : F) (p r W : nat) (factor : seq nat -> seq (nat * nat)) (c d : curve)
         (s : F) (calls calls' : seq count_call),
    curve_over g p r W c -> curve_over g p r W d -> c_points c = [::] -> c_points d = [::] ->
    (2 * size (c_coeffs c) < W)%N -> (2 * size (c_coeffs d) < W)%N ->
    (forall y, y ^+ 2 != s) -> poly_of g (c_coeffs d) = s *: poly_of g (c_coeffs c) ->
    squarefree (poly_of g (c_coeffs c)) ->
    factorisation (poly_of g (c_coeffs c)) (factor (c_coeffs c)) ->
    factorisation (poly_of g (c_coeffs d)) (factor (c_coeffs d)) ->
    (forall call, List.In call (calls ++ calls') -> valid_call g p r W call) ->
    [seq call_exponent call | call <- calls] =i [seq call_exponent call | call <- calls'] ->
    exists c' d' N,
      [/\ foldM (run_call W) c calls = Ok c', foldM (run_call W) d calls' = Ok d' &
          forall fuel, (N <= fuel)%N -> exists k,
            curve_key W fuel factor c' = Ok k /\ curve_key W fuel factor d' = Ok (twist k)].
Proof. exact: twist_history. Qed.
Print Assumptions C20_twist.

(** Both curves counted over the field with five elements: 8 and 4 points. *)
Example C20_case :
  [/\ curve_over (2%:R : 'F_5) 5 1 1000 e5, curve_over (2%:R : 'F_5) 5 1 1000 d5,
      forall y : 'F_5, y ^+ 2 != 2%:R,
      poly_of (2%:R : 'F_5) (c_coeffs d5) = 2%:R *: poly_of (2%:R : 'F_5) (c_coeffs e5) &
      [/\ squarefree (poly_of (2%:R : 'F_5) (c_coeffs e5)),
          factorisation (poly_of (2%:R : 'F_5) (c_coeffs e5)) (factor5 (c_coeffs e5)),
          factorisation (poly_of (2%:R : 'F_5) (c_coeffs d5)) (factor5 (c_coeffs d5)),
          valid_call (2%:R : 'F_5) 5 1 1000 (CallCount t5) &
          exists c' d', [/\ run_call 1000 e5 (CallCount t5) = Ok c',
            run_call 1000 d5 (CallCount t5) = Ok d',
            curve_key 1000 10 factor5 c' = Ok ([:: 1; 1; 1; 1]%N, [:: -2%:Z]) &
            curve_key 1000 10 factor5 d' = Ok ([:: 1; 1; 1; 1]%N, [:: 2%:Z])]]].
Proof.
have [Hs Hr] := e5_split; have [Hs' Hr'] := d5_split; split.
- exact: e5_over.
- exact: d5_over.
- by case=> -[|[|[|[|[|i]]]]] Hi //; vm_compute.
- apply/polyP => i; rewrite coefZ !coef_Poly /elt_of F5_card; apply/eqP.
  by case: i => [|[|[|[|i]]]]; rewrite /= ?nth_nil ?mulr0 //; vm_compute.
split.
- exact: (@split_squarefree [finFieldType of 'F_5] _ [:: 0; 1; -1] Hs Hr isT).
- exact: (@split_factorisation [finFieldType of 'F_5] _ [:: 0; 1; -1] Hs Hr isT).
- exact: (@split_factorisation [finFieldType of 'F_5] _ [:: 0; 1; -1] Hs' Hr' isT).
- exact: t5_valid.
- by eexists _, _; split; vm_compute; reflexivity.
Qed.

(** C20: twisting twice gives back the key. *)
Theorem C20_involution : forall k : key, twist (twist k) = k.
Proof. exact: twistK. Qed.
Print Assumptions C20_involution.

Example C20_involution_case :
  twist ([:: 1; 2]%N, [:: 3%:Z; -4%:Z; 5%:Z]) = ([:: 1; 2]%N, [:: -3%:Z; -4%:Z; -5%:Z]).
Proof. by []. Qed.
