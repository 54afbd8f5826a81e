(** Properties C01-C06: BlockIterator.  Statements use BlockSpec.v and the model functions
    only; proofs are in BlockTheorems.v. *)
Set Warnings "-notation-overridden,-ambiguous-paths".
From mathcomp Require Import all_ssreflect.
From Verif Require Import Res BlockIter BlockSpec BlockTheorems.

Set Implicit Arguments.
Unset Strict Implicit.
Unset Printing Implicit Defensive.

(** Concrete constructor arguments used below: two blocks, a set, and a set depending on it,
    with package size 3. *)
Definition ex_blocks : smap (nat * nat) := [:: (0, (0, 5)); (3, (2, 4))].
Definition ex_sets : smap (seq nat) := [:: (1, [:: 3; 1])].
Definition ex_deps : smap (nat * smap (seq nat)) :=
  [:: (2, (1, [:: (0, [:: 0; 2]); (1, [:: 4])]))].

Example ex_args_ok : args_ok 64 4 ex_blocks 3 ex_sets ex_deps.
Proof.
split=> //.
- by move=> ix l u; rewrite !inE => /orP[]/eqP[_ -> ->].
split.
- by move=> ix s; rewrite inE => /eqP[_ ->].
move=> ix jx m; rewrite inE => /eqP[_ -> ->]; left; exists [:: 3; 1]; first by rewrite inE.
by case=> [|[|k]] // _; [exists [:: 0; 2]|exists [:: 4]].
Qed.

(** C01: iterating over any non-empty vector of non-empty ranges that fit the word size
    visits exactly the vectors of the box, each once, and then ends. *)
Theorem C01_bounds_iterator_visits_box_once :
  forall (W : nat) (bounds : seq (nat * nat)),
    all (fun lu => (lu.1 < lu.2) && (lu.2 < W)) bounds -> bounds != [::] ->
    exists it vs,
      [/\ mk_biter_bounds bounds = Ok it,
          (forall fuel, size vs <= fuel -> iterate W as_position fuel it = Ok vs),
          uniq vs, (forall v, (v \in vs) = in_box bounds v) & size vs = box_volume bounds].
Proof. exact: bounds_positions. Qed.
Print Assumptions C01_bounds_iterator_visits_box_once.

Example C01_case :
  all (fun lu => (lu.1 < lu.2) && (lu.2 < 64)) [:: (2, 4); (0, 1); (5, 8)] /\
  bind (mk_biter_bounds [:: (2, 4); (0, 1); (5, 8)]) (iterate 64 as_position 6) =
    Ok [:: [:: 2; 0; 5]; [:: 2; 0; 6]; [:: 2; 0; 7];
           [:: 3; 0; 5]; [:: 3; 0; 6]; [:: 3; 0; 7]].
Proof. by split; vm_compute. Qed.

(** C02 and C03: the packages partition the described positions; each package has between
    one and [package_size] positions. *)
Theorem C02_packages_partition_described_positions :
  forall (W length : nat) blocks package_size sets deps,
    args_ok W length blocks package_size sets deps -> 0 < length ->
    exists it boxes,
      [/\ mk_biter length blocks package_size sets deps = Ok it,
          (forall fuel, size boxes <= fuel -> iterate W (as_block W) fuel it = Ok boxes),
          (forall v, count (fun b => in_box b v) boxes = described length blocks sets deps v) &
          all (fun b => (size b == length) && (0 < box_volume b <= package_size)) boxes].
Proof. exact: block_partition. Qed.
Print Assumptions C02_packages_partition_described_positions.

Example C02_case :
  args_ok 64 4 ex_blocks 3 ex_sets ex_deps /\
  bind (mk_biter 4 ex_blocks 3 ex_sets ex_deps) (iterate 64 (as_block 64) 12) =
    Ok [:: [:: (0, 3); (3, 4); (0, 1); (2, 3)]; [:: (0, 3); (3, 4); (2, 3); (2, 3)];
           [:: (0, 3); (1, 2); (4, 5); (2, 3)]; [:: (3, 5); (3, 4); (0, 1); (2, 3)];
           [:: (3, 5); (3, 4); (2, 3); (2, 3)]; [:: (3, 5); (1, 2); (4, 5); (2, 3)];
           [:: (0, 3); (3, 4); (0, 1); (3, 4)]; [:: (0, 3); (3, 4); (2, 3); (3, 4)];
           [:: (0, 3); (1, 2); (4, 5); (3, 4)]; [:: (3, 5); (3, 4); (0, 1); (3, 4)];
           [:: (3, 5); (3, 4); (2, 3); (3, 4)]; [:: (3, 5); (1, 2); (4, 5); (3, 4)]].
Proof. by split; [exact: ex_args_ok|vm_compute]. Qed.

(** C04: at every reachable state the enumerator of the current package visits exactly its
    positions, each once. *)
Theorem C04_block_enumerator_matches_block :
  forall (W length : nat) blocks package_size sets deps it0 k it,
    args_ok W length blocks package_size sets deps -> 0 < length ->
    mk_biter length blocks package_size sets deps = Ok it0 ->
    iter k (fun m => bind m (bi_step W)) (Ok it0) = Ok it -> ~~ bi_end it ->
    exists box en vs,
      [/\ as_block W it = Ok box, as_block_enumerator W it = Ok en,
          (forall fuel, size vs <= fuel -> iterate W as_position fuel en = Ok vs),
          uniq vs & forall v, (v \in vs) = in_box box v].
Proof. exact: enumerator_ok. Qed.
Print Assumptions C04_block_enumerator_matches_block.

Example C04_case :
  let it := bind (mk_biter 4 ex_blocks 3 ex_sets ex_deps)
                 (fun it0 => iter 4 (fun m => bind m (bi_step 64)) (Ok it0)) in
  bind it (as_block 64) = Ok [:: (3, 5); (3, 4); (2, 3); (2, 3)] /\
  bind (bind it (as_block_enumerator 64)) (iterate 64 as_position 2) =
    Ok [:: [:: 3; 3; 2; 2]; [:: 4; 3; 2; 2]].
Proof. by split; vm_compute. Qed.

(** C05: the end state absorbs further steps and a zero-length iterator starts there; the
    number of steps to the end is part of C01 ([size vs = box_volume bounds]). *)
Theorem C05_end_state_absorbing :
  forall (W : nat) (it : biter) (n : nat),
    bi_end it -> iter n (fun m => bind m (bi_step W)) (Ok it) = Ok it.
Proof. exact: end_absorbing. Qed.
Print Assumptions C05_end_state_absorbing.

Theorem C05_zero_length_starts_at_end :
  forall (W : nat) blocks package_size sets deps it,
    args_ok W 0 blocks package_size sets deps ->
    mk_biter 0 blocks package_size sets deps = Ok it -> bi_end it.
Proof. exact: zero_length_end. Qed.
Print Assumptions C05_zero_length_starts_at_end.

Example C05_case :
  (exists2 it, bind (mk_biter 4 ex_blocks 3 ex_sets ex_deps)
                 (fun it0 => iter 12 (fun m => bind m (bi_step 64)) (Ok it0)) = Ok it & bi_end it) /\
  (exists it, args_ok 64 0 [::] 1 [::] [::] /\ mk_biter 0 [::] 1 [::] [::] = Ok it).
Proof. by split; eexists; [vm_compute| |split]. Qed.

(** C06, the part that holds: an empty range terminates the program. *)
Theorem C06_empty_range_terminates_partial :
  forall length blocks package_size sets deps ix l u,
    (ix, (l, u)) \in blocks -> u <= l ->
    mk_biter length blocks package_size sets deps = Term.
Proof. exact: empty_range_terminates. Qed.
Print Assumptions C06_empty_range_terminates_partial.

Example C06_case : (1, (7, 7)) \in [:: (0, (0, 5)); (1, (7, 7))] /\ 7 <= 7.
Proof. by []. Qed.

(** C06, the parts that fail.  Package size zero divides by zero for all non-empty valid
    blocks; a block reaching the top of the word makes the iteration run for ever. *)
Theorem C06_package_size_zero_refuted :
  forall length blocks sets deps,
    blocks != [::] -> (forall ix l u, (ix, (l, u)) \in blocks -> l < u) ->
    mk_biter length blocks 0 sets deps = Undef.
Proof. exact: package_zero_undefined. Qed.
Print Assumptions C06_package_size_zero_refuted.

Theorem C06_termination_refuted :
  forall (W fuel : nat), 2 < W -> ~~ odd W ->
    exists2 it, mk_biter 1 [:: (0, (0, W.-1))] 2 [::] [::] = Ok it &
                iterate W as_position fuel it = OutOfFuel.
Proof. exact: wrap_never_ends. Qed.
Print Assumptions C06_termination_refuted.

Example C06_refuted_case :
  mk_biter 4 ex_blocks 0 ex_sets ex_deps = Undef /\
  bind (mk_biter 1 [:: (0, (0, 15))] 2 [::] [::]) (iterate 16 as_position 100) = OutOfFuel.
Proof. by split; vm_compute. Qed.
