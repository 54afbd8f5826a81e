(** Model of the memory behaviour of /repo/src/store/store_data.hh and /repo/src/store/store.cc: FLINT's integers
    and the implicit copies of StoreData::Count and StoreData::Count::ValueType.

    An [fmpz] below the limit ([COEFF_MAX + 1], which is 2^62 on 64-bit machines) is held in a
    machine word; a larger one is an index of a number on the heap.  The limit is a parameter.
    Reading or clearing a number that was cleared is undefined here; FLINT keeps cleared
    numbers for reuse, so that in practice the value is that of another number.  Counts are not
    negative. *)
Set Warnings "-notation-overridden,-ambiguous-paths".
From mathcomp Require Import all_ssreflect ssralg ssrnum ssrint.
From Verif Require Import Res OMap Store.

Set Implicit Arguments.
Unset Strict Implicit.
Unset Printing Implicit Defensive.

(** [fmpz_t counter], /repo/src/store/store_data.hh:65. *)
Inductive fmpz := Small of nat | Big of nat.
(** The large numbers (FLINT, not in /repo); [None] for one that was cleared. *)
Definition heap := seq (option nat).

(** The value of an [fmpz], as read by [fmpz_set], [fmpz_add] and [fmpz_get_str] in
    /repo/src/store/store_data.hh:82,111,116,122. *)
Definition f_value (h : heap) (x : fmpz) : res nat :=
  match x with
  | Small n => Ok n
  | Big p => if nth None h p is Some n then Ok n else Undef
  end.

(** [fmpz_clear], /repo/src/store/store_data.hh:88: the destructor of ValueType. *)
Definition f_clear (h : heap) (x : fmpz) : res heap :=
  match x with
  | Small _ => Ok h
  | Big p => if nth None h p is Some _ then Ok (set_nth None h p None) else Undef
  end.

(** The maps of /repo/src/store/store.hh:116,133. *)
Definition ftable := seq (key * fmpz).
(** Their lookup and assignment, /repo/src/store/store.cc:54-65,84-87,134-137.  The assignment is the implicit one of
    ValueType, /repo/src/store/store_data.hh:63-90: it copies the word only, and the number that the target had
    before is not cleared. *)
Definition ft_find : ftable -> key -> option fmpz := om_find key_lt.
Definition ft_set : ftable -> key -> fmpz -> ftable := om_set key_lt.
(** [store[k]], /repo/src/store/store.cc:59,65; a missing entry is created by ValueType(),
    /repo/src/store/store_data.hh:67-70. *)
Definition ft_get (m : ftable) (k : key) : fmpz := if ft_find m k is Some x then x else Small 0.

(** The members of a Store and the static ones, /repo/src/store/store.hh:116,132-134, for several Stores, with the
    heap. *)
Record hstate := HState { h_heap : heap; h_stores : seq ftable; h_static : ftable }.

(** Calls of a Store: register_curve for a curve with the given key and multiplicity, flush_to_static_store,
    flush_static_store, a line read by extract, insert, and the destructor, /repo/src/store/store.hh:68-110; [t] says which Store. *)
Inductive sop :=
  | Register of nat & key & nat | FlushTo of nat | FlushStatic | Extract of nat & key & nat | Insert of nat
  | Destroy of nat.

Section Limit.
Variable lim : nat.

(** The result [v] of a FLINT function is stored in [x] (fmpz_set, fmpz_add, fmpz_set_str in
    /repo/src/store/store_data.hh:82,111,116 and /repo/src/store/store_data.cc:36): a large number of [x] is reused
    or cleared. *)
Definition f_store (h : heap) (x : fmpz) (v : nat) : res (heap * fmpz) :=
  if v < lim then h <- f_clear h x ;; Ok (h, Small v)
  else match x with
       | Small _ => Ok (rcons h (Some v), Big (size h))
       | Big p => if nth None h p is Some _ then Ok (set_nth None h p (Some v), x) else Undef
       end.

(** A new ValueType with the value of [x]: ValueType(const Count &), /repo/src/store/store_data.hh:79-83. *)
Definition f_copy (h : heap) (x : fmpz) : res (heap * fmpz) := v <- f_value h x ;; f_store h (Small 0) v.

(** [operator+=], /repo/src/store/store_data.hh:109-117. *)
Definition f_add (h : heap) (x y : fmpz) : res (heap * fmpz) :=
  a <- f_value h x ;; b <- f_value h y ;; f_store h x (a + b).

(** Store::register_curve, /repo/src/store/store.cc:39-67.  [data] is the Count of line 51.  In line 56 it is
    converted to a temporary ValueType, whose word is copied and which is then destroyed.  In line 61
    [data.twist()] (/repo/src/store/store_data.hh:56) is another Count with the same word, which is destroyed after the
    temporary ValueType. *)
Definition h_register (h : heap) (m : ftable) (k : key) (n : nat) : res (heap * ftable) :=
  let tk := twist k in
  hd <- f_store h (Small 0) n ;;
  let: (h, data) := hd in
  if ft_find m k is Some x then
    hx <- f_add h x data ;;
    let m := ft_set m k hx.2 in
    hy <- f_add hx.1 (ft_get m tk) data ;;
    let m := ft_set m tk hy.2 in
    h <- f_clear hy.1 data ;;
    Ok (h, m)
  else
    ht <- f_copy h data ;;
    let m := ft_set m k ht.2 in
    h <- f_clear ht.1 ht.2 ;;
    if tk == k then
      hx <- f_add h (ft_get m k) data ;;
      let m := ft_set m k hx.2 in
      h <- f_clear hx.1 data ;;
      Ok (h, m)
    else
      ht <- f_copy h data ;;
      let m := ft_set m tk ht.2 in
      h <- f_clear ht.1 ht.2 ;;
      h <- f_clear h data ;;
      h <- f_clear h data ;;
      Ok (h, m).

(** [clear()] of a map and its destruction, /repo/src/store/store.cc:89,108 and /repo/src/store/store.hh:57-59. *)
Definition h_clear (h : heap) (m : ftable) : res heap := foldM (fun h kx => f_clear h kx.2) h m.

(** One round of the loop of /repo/src/store/store.cc:83-88. *)
Definition h_flush_entry (hm : heap * ftable) (kx : key * fmpz) : res (heap * ftable) :=
  let: (h, m) := hm in
  if ft_find m kx.1 is Some y then
    hy <- f_add h y kx.2 ;; Ok (hy.1, ft_set m kx.1 hy.2)
  else Ok (h, ft_set m kx.1 kx.2).

(** One line in Store::extract, /repo/src/store/store.cc:124-137; [store_value] is destroyed at the end of the round. *)
Definition h_extract (h : heap) (m : ftable) (k : key) (n : nat) : res (heap * ftable) :=
  hv <- f_store h (Small 0) n ;;
  let: (h, v) := hv in
  if ft_find m k is Some x then
    hx <- f_add h x v ;; h <- f_clear hx.1 v ;; Ok (h, ft_set m k hx.2)
  else
    let m := ft_set m k v in
    h <- f_clear h v ;; Ok (h, m).

(** The values printed by Store::insert, /repo/src/store/store.cc:145-153. *)
Definition h_insert (h : heap) (m : ftable) : res (seq (key * nat)) :=
  mapM (fun kx => v <- f_value h kx.2 ;; Ok (kx.1, v)) m.

(** One call (/repo/src/store/store.cc:39-153); the second result is what is printed. *)
Definition h_step (s : hstate) (op : sop) : res (hstate * seq (key * nat)) :=
  let: HState h ms st := s in
  match op with
  | Register t k n =>
      hm <- h_register h (nth [::] ms t) k n ;;
      Ok (HState hm.1 (set_nth [::] ms t hm.2) st, [::])
  | FlushTo t =>
      hm <- foldM h_flush_entry (h, st) (nth [::] ms t) ;;
      h <- h_clear hm.1 (nth [::] ms t) ;;
      Ok (HState h (set_nth [::] ms t [::]) hm.2, [::])
  | FlushStatic =>
      out <- h_insert h st ;;
      h <- h_clear h st ;;
      Ok (HState h ms [::], out)
  | Extract t k n =>
      hm <- h_extract h (nth [::] ms t) k n ;;
      Ok (HState hm.1 (set_nth [::] ms t hm.2) st, [::])
  | Insert t => out <- h_insert h (nth [::] ms t) ;; Ok (s, out)
  | Destroy t =>
      h <- h_clear h (nth [::] ms t) ;;
      Ok (HState h (set_nth [::] ms t [::]) st, [::])
  end.

(** A sequence of calls (no counterpart in /repo), starting with empty stores; the second result is what was printed. *)
Fixpoint h_run (s : hstate) (ops : seq sop) : res (hstate * seq (seq (key * nat))) :=
  if ops is op :: ops' then
    so <- h_step s op ;;
    sos <- h_run so.1 ops' ;;
    Ok (sos.1, so.2 :: sos.2)
  else Ok (s, [::]).
Definition h_start : hstate := HState [::] [::] [::].
End Limit.
