(** Model of /repo/src/curve.{hh,cc}.

    [W] is the number of values of [unsigned int]; every sum, difference and product of
    unsigned values is reduced modulo [W].  The member [table] is represented by its prime
    [p], prime exponent [r] and prime power [q]; a ReductionTable by the same three numbers
    and its two tables.  [operator<<] (/repo/src/curve.cc:52-69) and the OpenCL branch of [count]
    (/repo/src/curve.cc:186-187, 210-243) are not modelled here; see OpenCL.v for the kernels. *)
Set Warnings "-notation-overridden,-ambiguous-paths".
From mathcomp Require Import all_ssreflect ssralg ssrint poly finalg.
From Verif Require Import Res Tables.

Set Implicit Arguments.
Unset Strict Implicit.
Unset Printing Implicit Defensive.

(** Unsigned arithmetic, used throughout /repo/src/curve.cc. *)
Definition uadd (W a b : nat) : nat := (a + b) %% W.
Definition umul (W a b : nat) : nat := (a * b) %% W.
Definition usub (W a b : nat) : nat := (a + (W - b %% W)) %% W.

(** Class Curve, /repo/src/curve.hh:46-96. *)
Record curve := Curve {
  c_prime : nat;                   (* table->prime *)
  c_exponent : nat;                (* table->prime_exponent *)
  c_power : nat;                   (* table->prime_power *)
  c_coeffs : seq nat;              (* poly_coeff_exponents *)
  c_points : smap (nat * nat) }.   (* nmb_points: (unramified, ramified) *)

(** The fields of ReductionTable used by Curve, /repo/src/reduction_table.hh. *)
Record redtable := RedTable {
  rt_prime : nat;
  rt_exponent : nat;
  rt_power : nat;
  rt_red : seq nat;                (* exponent_reduction_table *)
  rt_inc : seq nat }.              (* incrementation_table *)

(** The loop of /repo/src/curve.cc:80-81 on the reversed vector; [back()] of an empty vector is
    undefined. *)
Fixpoint strip_rev (z : nat) (rv : seq nat) : res (seq nat) :=
  if rv is x :: rv' then if x == z then strip_rev z rv' else Ok rv else Undef.

(** Curve::Curve, /repo/src/curve.cc:71-82. *)
Definition mk_curve (p r q : nat) (coeffs : seq nat) : res curve :=
  rv <- strip_rev (zero_index q) (rev coeffs) ;; Ok (Curve p r q (rev rv) [::]).

(** Curve::degree, /repo/src/curve.hh:55. *)
Definition degree (c : curve) : nat := (size (c_coeffs c)).-1.

(** Curve::genus, /repo/src/curve.cc:84-93; for degree zero the subtraction wraps around. *)
Definition genus (W : nat) (c : curve) : nat :=
  if degree c %% 2 == 0 then usub W (degree c) 2 %/ 2 else usub W (degree c) 1 %/ 2.

(** Curve::rhs_support, /repo/src/curve.cc:95-108. *)
Definition rhs_support (c : curve) : seq nat :=
  [seq ix <- iota 0 (size (c_coeffs c)) | nth 0 (c_coeffs c) ix != zero_index (c_power c)].

(** Curve::has_counted, /repo/src/curve.hh:74. *)
Definition has_counted (c : curve) (fx : nat) : bool := isSome (sm_find (c_points c) fx).

(** Curve::convert_poly_coeff_exponents, /repo/src/curve.cc:130-160; [throw;] without an active
    exception terminates. *)
Definition convert_coeffs (W : nat) (c : curve) (t : redtable) : res (seq nat) :=
  if c_prime c != rt_prime t then Term
  else if rt_exponent t %% c_exponent c != 0 then Term
  else if c_exponent c == rt_exponent t then Ok (c_coeffs c)
  else
    let prime_power_pred := (c_power c).-1 in
    let exponent_factor := (rt_power t).-1 %/ prime_power_pred in
    Ok [seq if x != prime_power_pred then umul W exponent_factor x else (rt_power t).-1
       | x <- c_coeffs c].

(** Body of the loop over [dx], /repo/src/curve.cc:263-288; the state is ([f], [xpw]) and [cf] is
    [poly_coeff_exponents[dx]]. *)
Definition cpu_step (W Qp : nat) (red inc : seq nat) (x : nat) (s : nat * nat) (cf : nat)
    : res (nat * nat) :=
  let: (f, xpw) := s in
  xpw <- vget red xpw ;;
  f <- (if cf == Qp then Ok f
        else if f == Qp then vget red (uadd W cf xpw)
        else
          tmp <- vget red (uadd W cf xpw) ;;
          let: (f, tmp) := if tmp <= f then (tmp, f) else (f, tmp) in
          tmp2 <- vget inc (tmp - f) ;;
          if tmp2 != Qp then vget red (uadd W f tmp2) else Ok Qp) ;;
  Ok (f, uadd W xpw x).

(** Evaluation of the polynomial at the point with index [x], /repo/src/curve.cc:262-288. *)
Definition cpu_eval (W Qp : nat) (red inc : seq nat) (coeffs : seq nat) (x : nat) : res nat :=
  f0 <- vget coeffs 0 ;;
  s <- foldM (cpu_step W Qp red inc x) (f0, x) (behead coeffs) ;;
  Ok s.1.

(** /repo/src/curve.cc:290-293, 194-198: a zero value adds a ramified point, an even exponent two
    unramified ones. *)
Definition tally (W Qp : nat) (pts : nat * nat) (f : nat) : nat * nat :=
  if f == Qp then (pts.1, uadd W pts.2 1)
  else if ~~ odd f then (uadd W pts.1 2, pts.2) else pts.

(** Curve::count_cpu, /repo/src/curve.cc:245-295, acting on the entry of [nmb_points]. *)
Definition count_cpu (W : nat) (t : redtable) (coeffs : seq nat) (pts : nat * nat)
    : res (nat * nat) :=
  let Qp := (rt_power t).-1 in
  foldM (fun pts x => f <- cpu_eval W Qp (rt_red t) (rt_inc t) coeffs x ;; Ok (tally W Qp pts f))
        pts (iota 1 Qp).

(** The point at infinity, /repo/src/curve.cc:201-207, 401-407, 524-530; [sq] tells whether the leading
    coefficient is a square. *)
Definition at_infinity (W : nat) (c : curve) (sq : bool) (pts : nat * nat) : nat * nat :=
  if degree c < uadd W (umul W 2 (genus W c)) 2 then (pts.1, uadd W pts.2 1)
  else if sq then (uadd W pts.1 2, pts.2) else pts.

(** [nmb_points[k] = pts], /repo/src/curve.cc:179, 372, 495. *)
Definition set_points (c : curve) (k : nat) (pts : nat * nat) : curve :=
  Curve (c_prime c) (c_exponent c) (c_power c) (c_coeffs c) (sm_set (c_points c) k pts).

(** Curve::count without OpenCL, /repo/src/curve.cc:162-208.  The entry is written step by step in the
    code; here it is computed and stored at the end, since the only other outcome is the end
    of the process.  [front()] and [back()] of an empty vector are undefined. *)
Definition count (W : nat) (c : curve) (t : redtable) : res curve :=
  if rt_prime t != c_prime c then Term
  else if has_counted c (rt_exponent t) then Ok c
  else
    coeffs <- convert_coeffs W c t ;;
    pts <- count_cpu W t coeffs (0, 0) ;;
    front <- vget coeffs 0 ;;
    let pts := tally W (rt_power t).-1 pts front in
    back <- vget (rev coeffs) 0 ;;
    Ok (set_points c (rt_exponent t) (at_infinity W c (~~ odd back) pts)).

(** Curve::number_of_points(max_prime_exponent), /repo/src/curve.cc:544-561; [at] throws when missing. *)
Definition multiples (r k : nat) : seq nat := [seq i * r | i <- iota 1 (k %/ r)].
Definition number_of_points (c : curve) (max_prime_exponent : nat) : res (seq (nat * nat)) :=
  mapM (sm_at (c_points c)) (multiples (c_exponent c) max_prime_exponent).

(** Curve::max_prime_exponent, /repo/src/curve.cc:564-581. *)
Fixpoint mpe_loop (fuel r : nat) (pts : smap (nat * nat)) (k : nat) : res nat :=
  if isSome (sm_find pts k) then
    if fuel is n.+1 then mpe_loop n r pts (k + r) else OutOfFuel
  else Ok (k - r).
Definition max_prime_exponent (fuel : nat) (c : curve) : res nat :=
  mpe_loop fuel (c_exponent c) (c_points c) (c_exponent c).

(** Curve::hasse_weil_offsets(), /repo/src/curve.cc:583-594.  [pow] returns a double, exact below 2^53;
    the sum of the two counts is unsigned; the conversion to [int] is exact for the values
    that occur when [q^k+1] fits an [int]. *)
Definition hasse_weil_map (W : nat) (c : curve) : smap int :=
  [seq (kv.1, ((c_prime c ^ kv.1 + 1)%:Z - (uadd W kv.2.1 kv.2.2)%:Z)%R) | kv <- c_points c].

(** Curve::hasse_weil_offsets(max_prime_exponent), /repo/src/curve.cc:596-614; [operator[]] inserts 0
    for a missing key. *)
Definition hasse_weil_offsets (W : nat) (c : curve) (max_prime_exponent : nat) : seq int :=
  [seq if sm_find (hasse_weil_map W c) k is Some x then x else 0%R
  | k <- multiples (c_exponent c) max_prime_exponent].

(** [for (gx = fx; gx < degree; gx += fx) lower[gx] += new], /repo/src/curve.cc:643-644. *)
Definition add_lower (W fx new : nat) (lower : seq nat) : seq nat :=
  mkseq (fun gx => if (0 < gx) && (gx %% fx == 0) then uadd W (nth 0 lower gx) new
                   else nth 0 lower gx) (size lower).

(** The loop of /repo/src/curve.cc:630-645: [n] rounds are left; the state is ([ramifications],
    [ramification_sum], [nmb_ramified_points_from_lower] as a vector); the last component of
    the result is [fx]. *)
Fixpoint ram_loop (W n fx r : nat) (pts : smap (nat * nat)) (s : seq nat * nat * seq nat)
    : seq nat * nat * nat :=
  let: (rams, rsum, lower) := s in
  if n is n'.+1 then
    if sm_find pts (fx * r) is Some np then
      let new := usub W np.2 (nth 0 lower fx) in
      ram_loop W n' fx.+1 r pts
        (rams ++ nseq ((new + fx.-1) %/ fx) fx, uadd W rsum new, add_lower W fx new lower)
    else (rams, rsum, fx)
  else (rams, rsum, fx).

(** Curve::ramification_type, /repo/src/curve.cc:616-694.  [factor] is FLINT's factorisation of the right
    hand side: the list of (degree, multiplicity) of its irreducible factors
    (nmod_poly_factor, fq_nmod_poly_factor). *)
Definition ramification_type (W : nat) (factor : seq nat -> seq (nat * nat)) (c : curve) : seq nat :=
  let d := degree c in
  let: (rams, rsum, fx) := ram_loop W d.-1 1 (c_exponent c) (c_points c) ([::], 0, nseq d 0) in
  let diff := usub W (uadd W (umul W 2 (genus W c)) 2) rsum in
  if diff < umul W 2 fx then if diff != 0 then rcons rams diff else rams
  else sort leq ((if d %% 2 == 1 then [:: 1] else [::]) ++
                 flatten [seq nseq de.2 de.1 | de <- factor (c_coeffs c)]).

(** Curve::rhs_polynomial, /repo/src/curve.cc:715-727, and rhs_nmod_polynomial, 696-713 (which in addition
    requires a prime field): [at] is FqElementTable::at. *)
Definition rhs_coefficients (F : finFieldType) (tbl : seq F) (c : curve) : res (seq F) :=
  mapM (fq_at tbl) (c_coeffs c).

(** Curve::has_squarefree_rhs, /repo/src/curve.cc:110-128; [is_squarefree] stands for
    nmod_poly_is_squarefree and fq_nmod_poly_is_squarefree applied to the coefficients. *)
Definition has_squarefree_rhs (F : finFieldType) (tbl : seq F) (is_squarefree : seq F -> bool)
    (c : curve) : res bool :=
  cs <- rhs_coefficients tbl c ;; Ok (is_squarefree cs).

Section Naive.
Import GRing.Theory.
Local Open Scope ring_scope.
(** The extension field set up by FLINT and its distinguished element [gen]. *)
Variables (L : finFieldType) (gen : L).

(** is_square_nonzero, /repo/src/curve.cc:352-362, 475-485. *)
Definition naive_square (Qp : nat) (a : L) : bool := a ^+ Qp./2 == 1.

(** Conversion of the coefficients, /repo/src/curve.cc:333-349, 456-472. *)
Definition naive_coeffs (Qp qp : nat) (coeffs : seq nat) : seq L :=
  let sub_gen := gen ^+ (Qp %/ qp) in
  [seq if e == qp then 0 else sub_gen ^+ e | e <- coeffs].

(** update_count, /repo/src/curve.cc:373-390, 496-513. *)
Definition naive_eval (cs : seq L) (x : L) : L :=
  (foldl (fun (s : L * L) c => (s.1 + c * s.2, s.2 * x)) (0, 1) cs).1.
Definition naive_update (W Qp : nat) (cs : seq L) (pts : nat * nat) (x : L) : nat * nat :=
  let rhs := naive_eval cs x in
  if rhs == 0 then (pts.1, uadd W pts.2 1)
  else if naive_square Qp rhs then (uadd W pts.1 2, pts.2) else pts.

(** The loop of /repo/src/curve.cc:392-398, 515-521; the state is (counts, [x]). *)
Definition naive_loop (W Qp : nat) (cs : seq L) (pts : nat * nat) : nat * nat :=
  let pts := naive_update W Qp cs pts 0 in
  (iter Qp (fun s : (nat * nat) * L => (naive_update W Qp cs s.1 s.2, s.2 * gen)) (pts, 1)).1.

(** Curve::count_naive_nmod, /repo/src/curve.cc:297-419, and Curve::count_naive_zech, 421-542, which differ
    in FLINT's representation of the field only.  [back()] of an empty vector is undefined. *)
Definition count_naive (W : nat) (c : curve) (prime_exponent : nat) : res curve :=
  if (prime_exponent <= 0)%N then Term
  else if (prime_exponent %% c_exponent c != 0)%N then Term
  else if has_counted c prime_exponent then Ok c
  else
    let Qp := (c_prime c ^ prime_exponent).-1 in
    let cs := naive_coeffs Qp (c_power c).-1 (c_coeffs c) in
    let pts := naive_loop W Qp cs (0%N, 0%N) in
    bck <- vget (rev cs) 0 ;;
    Ok (set_points c prime_exponent (at_infinity W c (naive_square Qp bck) pts)).
End Naive.
