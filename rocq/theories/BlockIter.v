(** Model of /repo/src/block_iterator.{hh,cc}: the odometer that cuts the search space
    into packages.  [W] is the modulus of [unsigned int] ([2^32] on the target); every
    [unsigned int] addition that is not obviously bounded is taken modulo [W]. *)
Set Warnings "-notation-overridden,-ambiguous-paths".
From mathcomp Require Import all_ssreflect.
From Verif Require Import Res.

Set Implicit Arguments.
Unset Strict Implicit.
Unset Printing Implicit Defensive.

(** Constructor argument types, /repo/src/block_iterator.hh:54-60. *)
Definition blk_arg := smap (nat * nat).              (* index |-> (lbd, ubd) *)
Definition set_arg := smap (seq nat).                (* index |-> values *)
Definition dep_arg := smap (nat * smap (seq nat)).   (* index |-> (coupled index, choices) *)

(** The data members, /repo/src/block_iterator.hh:76-87. *)
Record biter := BIter {
  bi_length : nat;
  bi_uo_blocks : seq nat;
  bi_uo_sets : seq nat;
  bi_uo_deps : seq nat;
  bi_blocks : smap (nat * nat * nat);                (* index |-> (lbd, ubd, step) *)
  bi_sets : set_arg;
  bi_deps : dep_arg;
  bi_pos : seq nat;
  bi_end : bool }.

(** Order used by the sort of /repo/src/block_iterator.cc:97: sorting the reversed range ascendingly
    by (size, index) leaves the vector in descending order. *)
Definition size_ix_ge (a b : nat * nat) : bool :=
  (b.1 < a.1) || ((b.1 == a.1) && (b.2 <= a.2)).

(** /repo/src/block_iterator.cc:83-96: collect (size, index); empty ranges call [throw;]. *)
Definition block_sizes (blocks : blk_arg) : res (seq (nat * nat)) :=
  mapM (fun kb : nat * (nat * nat) =>
          let: (ix, (lbd, ubd)) := kb in
          if ubd <= lbd then Term else Ok (ubd - lbd, ix)) blocks.

(** /repo/src/block_iterator.cc:100-109: one pass of the second loop.  [package_size /= step_size]
    divides by zero when [step_size] is zero. *)
Definition init_block_step (blocks : blk_arg)
    (st : seq nat * smap (nat * nat * nat) * nat) (sz_ix : nat * nat)
    : res (seq nat * smap (nat * nat * nat) * nat) :=
  let: (uo, bs, package_size) := st in
  let: (block_size, ix) := sz_ix in
  let step_size := if block_size <= package_size then block_size else package_size in
  if step_size == 0 then Undef else
  b <- sm_at blocks ix ;;
  Ok (rcons uo ix, sm_set bs ix (b.1, b.2, step_size), package_size %/ step_size).

(** BlockIterator::initialize_blocks, /repo/src/block_iterator.cc:76-110. *)
Definition initialize_blocks (blocks : blk_arg) (package_size : nat)
    : res (seq nat * smap (nat * nat * nat)) :=
  sizes <- block_sizes blocks ;;
  st <- foldM (init_block_step blocks) ([::], [::], package_size) (sort size_ix_ge sizes) ;;
  Ok st.1.

(** BlockIterator::set_initial_position, /repo/src/block_iterator.cc:112-129.  [this->blocks[ix]]
    finds [ix] because it was inserted with it; a missing key (which would be default
    inserted) is reported as [Term] here. *)
Definition initial_position (length : nat) (uo_blocks uo_sets uo_deps : seq nat)
    (blocks : smap (nat * nat * nat)) : res (seq nat) :=
  pos <- foldM (fun pos ix => b <- sm_at blocks ix ;; vset pos ix b.1.1)
               (nseq length 0) uo_blocks ;;
  pos <- foldM (fun pos ix => vset pos ix 0) pos uo_sets ;;
  foldM (fun pos ix => vset pos ix 0) pos uo_deps.

(** BlockIterator(length, blocks, package_size, sets, dependent_sets),
    /repo/src/block_iterator.cc:49-74. *)
Definition mk_biter (length : nat) (blocks : blk_arg) (package_size : nat)
    (sets : set_arg) (deps : dep_arg) : res biter :=
  '(uo, bs) <- initialize_blocks blocks package_size ;;
  pos <- initial_position length uo (sm_keys sets) (sm_keys deps) bs ;;
  Ok (BIter length uo (sm_keys sets) (sm_keys deps) bs sets deps pos (length == 0)).

(** BlockIterator(bounds), /repo/src/block_iterator.cc:34-47; it leaves [sets] and
    [dependent_sets] empty. *)
Definition mk_biter_bounds (bounds : seq (nat * nat)) : res biter :=
  mk_biter (size bounds) (zip (iota 0 (size bounds)) bounds) 1 [::] [::].

(** [map_set[k]] for [map<unsigned int, vector<unsigned int>>], /repo/src/block_iterator.cc:143 and
    240: a missing key is default-inserted as an empty vector, which no later access can
    distinguish from a missing key. *)
Definition choices (m : smap (seq nat)) (k : nat) : seq nat :=
  if sm_find m k is Some s then s else [::].

(** BlockIterator::as_position, /repo/src/block_iterator.cc:131-151: dependent sets are resolved
    first, while [position[jx]] still is the raw index, then sets. *)
Definition resolve_dep (pos : seq nat) (d : nat * (nat * smap (seq nat))) : res (seq nat) :=
  let: (ix, (jx, m)) := d in
  c <- vget pos jx ;; i <- vget pos ix ;;
  v <- vget (choices m c) i ;; vset pos ix v.
Definition resolve_set (pos : seq nat) (d : nat * seq nat) : res (seq nat) :=
  let: (ix, s) := d in i <- vget pos ix ;; v <- vget s i ;; vset pos ix v.
Definition as_position (it : biter) : res (seq nat) :=
  pos <- foldM resolve_dep (bi_pos it) (bi_deps it) ;;
  foldM resolve_set pos (bi_sets it).

(** Upper end of the current package of a block, /repo/src/block_iterator.cc:168-170 and 190-192. *)
Definition block_ubd (W lbd ubd step : nat) : nat :=
  let x := (lbd + step) %% W in if ubd < x then ubd else x.

(** BlockIterator::as_block, /repo/src/block_iterator.cc:153-176. *)
Definition as_block (W : nat) (it : biter) : res (seq (nat * nat)) :=
  pos <- as_position it ;;
  foldM (fun bounds (kb : nat * (nat * nat * nat)) =>
           let: (ix, (_, ubd, step)) := kb in
           c <- vget bounds ix ;;
           vset bounds ix (c.1, block_ubd W c.1 ubd step))
        [seq (c, c.+1 %% W) | c <- pos] (bi_blocks it).

(** BlockIterator::as_block_enumerator, /repo/src/block_iterator.cc:178-206; the returned iterator
    uses the constructor of /repo/src/block_iterator.hh:47-53, i.e. package size 1. *)
Definition as_block_enumerator (W : nat) (it : biter) : res biter :=
  pos <- as_position it ;;
  '(blocks, sets) <-
    foldM (fun (bs : blk_arg * set_arg) (kb : nat * (nat * nat * nat)) =>
             let: (ix, (_, ubd, step)) := kb in
             lbd <- vget pos ix ;;
             let ubd' := block_ubd W lbd ubd step in
             if 1 < (ubd' + W - lbd) %% W
             then Ok (sm_set bs.1 ix (lbd, ubd'), bs.2)
             else Ok (bs.1, sm_set bs.2 ix [:: lbd]))
          ([::], [::]) (bi_blocks it) ;;
  sets <- foldM (fun (ss : set_arg) (d : nat * seq nat) =>
                   v <- vget pos d.1 ;; Ok (sm_set ss d.1 [:: v])) sets (bi_sets it) ;;
  sets <- foldM (fun (ss : set_arg) (d : nat * (nat * smap (seq nat))) =>
                   v <- vget pos d.1 ;; Ok (sm_set ss d.1 [:: v])) sets (bi_deps it) ;;
  mk_biter (bi_length it) blocks 1 sets [::].

(** BlockIterator::step_ with step_type 2, /repo/src/block_iterator.cc:272-288.  The boolean tells
    whether [has_reached_end] was set.  Reading [update_order_blocks[0]] of an empty vector
    is undefined. *)
Fixpoint step_blocks (W : nat) (blocks : smap (nat * nat * nat)) (order : seq nat)
    (pos : seq nat) : res (seq nat * bool) :=
  if order is px :: rest then
    b <- sm_at blocks px ;;
    let: (lbd, ubd, step) := b in
    c <- vget pos px ;;
    let x := (c + step) %% W in
    if ubd <= x then
      pos <- vset pos px lbd ;;
      (if rest is [::] then Ok (pos, true) else step_blocks W blocks rest pos)
    else pos <- vset pos px x ;; Ok (pos, false)
  else Undef.

(** BlockIterator::step_ with step_type 1, /repo/src/block_iterator.cc:253-269. *)
Fixpoint step_sets (W : nat) (it : biter) (order : seq nat) (pos : seq nat)
    : res (seq nat * bool) :=
  if order is px :: rest then
    s <- sm_at (bi_sets it) px ;;
    c <- vget pos px ;;
    let x := c.+1 %% W in
    if size s <= x then
      pos <- vset pos px 0 ;;
      (if rest is [::] then
         if bi_uo_blocks it is [::] then Ok (pos, true)
         else step_blocks W (bi_blocks it) (bi_uo_blocks it) pos
       else step_sets W it rest pos)
    else pos <- vset pos px x ;; Ok (pos, false)
  else Undef.

(** BlockIterator::step_ with step_type 0, /repo/src/block_iterator.cc:232-250. *)
Fixpoint step_deps (W : nat) (it : biter) (order : seq nat) (pos : seq nat)
    : res (seq nat * bool) :=
  if order is px :: rest then
    d <- sm_at (bi_deps it) px ;;
    let: (coupled, m) := d in
    c <- vget pos px ;;
    let x := c.+1 %% W in
    pos <- vset pos px x ;;
    k <- vget pos coupled ;;
    if size (choices m k) <= x then
      pos <- vset pos px 0 ;;
      (if rest is [::] then
         if bi_uo_sets it is [::] then
           if bi_uo_blocks it is [::] then Ok (pos, true)
           else step_blocks W (bi_blocks it) (bi_uo_blocks it) pos
         else step_sets W it (bi_uo_sets it) pos
       else step_deps W it rest pos)
    else Ok (pos, false)
  else Undef.

(** Assignment to the members [position] and [has_reached_end], /repo/src/block_iterator.cc:226-291. *)
Definition set_pos (it : biter) (pe : seq nat * bool) : biter :=
  BIter (bi_length it) (bi_uo_blocks it) (bi_uo_sets it) (bi_uo_deps it)
        (bi_blocks it) (bi_sets it) (bi_deps it) pe.1 pe.2.

(** BlockIterator::step, /repo/src/block_iterator.cc:208-224. *)
Definition bi_step (W : nat) (it : biter) : res biter :=
  if bi_end it then Ok it else
  pe <- (if bi_deps it is _ :: _ then step_deps W it (bi_uo_deps it) (bi_pos it)
         else if bi_sets it is _ :: _ then step_sets W it (bi_uo_sets it) (bi_pos it)
         else step_blocks W (bi_blocks it) (bi_uo_blocks it) (bi_pos it)) ;;
  Ok (set_pos it pe).

(** The client loop [for (it; !it.is_end(); it.step()) l.push_back(f(it))], as written in
    /repo/src/threaded/thread.cc:87-92 and /repo/src/executables/threaded.cc:143-146; [fuel]
    bounds the number of rounds. *)
Fixpoint iterate (W : nat) {A : Type} (f : biter -> res A) (fuel : nat) (it : biter)
    : res (seq A) :=
  if bi_end it then Ok [::] else
  if fuel is n.+1 then
    x <- f it ;; it' <- bi_step W it ;; xs <- iterate W f n it' ;; Ok (x :: xs)
  else OutOfFuel.
