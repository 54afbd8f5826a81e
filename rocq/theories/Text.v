(** Model of the text formats: /repo/src/store/curve_data.cc:66-129, store_data.{hh,cc},
    /repo/src/store/store.cc:113-154 and /repo/src/store/file_store.cc:98-155, on top of the C++ streams.

    A character is its code.  The stream functions follow the C++11 standard in the "C" locale:
    [badbit] and exceptions do not occur.  [M] is 2^31, the bound of [int]; [W] is 2^32. *)
Set Warnings "-notation-overridden,-ambiguous-paths".
From Coq Require Import Ascii String.
From mathcomp Require Import all_ssreflect ssralg ssrnum ssrint intdiv.
From Verif Require Import Res OMap Store.

Set Implicit Arguments.
Unset Strict Implicit.
Unset Printing Implicit Defensive.

(** Characters used in /repo/src/store/curve_data.cc:66-129, /repo/src/store/store.cc:128,153 and
    /repo/src/store/file_store.cc:142,154. *)
Definition char := nat.
Definition c_nl : char := 10.
Definition c_space : char := 32.
Definition c_plus : char := 43.
Definition c_comma : char := 44.
Definition c_minus : char := 45.
Definition c_zero : char := 48.
Definition c_colon : char := 58.
Definition c_semi : char := 59.
Definition is_digit (c : char) : bool := (48 <= c) && (c < 58).
Definition is_space (c : char) : bool := (c == 32) || ((9 <= c) && (c < 14)).

(** Texts as written in Coq; for literals of the code such as /repo/src/store/file_store.cc:34-35, and for cases. *)
Fixpoint text (s : string) : seq char :=
  if s is String a s' then nat_of_ascii a :: text s' else [::].

(** ** Output *)

(** Decimal notation: [operator<<] of [unsigned int] and [int] (used in
    /repo/src/store/curve_data.cc:74-84, /repo/src/store/file_store.cc:142) and [fmpz_get_str] in base 10
    (/repo/src/store/store_data.hh:122). *)
Fixpoint dec_rec (fuel n : nat) (acc : seq char) : seq char :=
  if n < 10 then (c_zero + n) :: acc
  else if fuel is f.+1 then dec_rec f (n %/ 10) ((c_zero + n %% 10) :: acc) else acc.
Definition dec (n : nat) : seq char := dec_rec n n [::].
Definition dec_int (z : int) : seq char :=
  match z with Posz n => dec n | Negz n => c_minus :: dec n.+1 end.

(** Items separated by commas, /repo/src/store/curve_data.cc:73-77 and 81-85. *)
Fixpoint commas (items : seq (seq char)) : seq char :=
  match items with
  | [::] => [::]
  | [:: x] => x
  | x :: items' => x ++ c_comma :: commas items'
  end.

(** [operator<<] for keys, /repo/src/store/curve_data.cc:66-88. *)
Definition print_key (k : key) : seq char :=
  commas [seq dec x | x <- k.1] ++ c_semi :: commas [seq dec_int z | z <- k.2].

(** Store::insert, /repo/src/store/store.cc:141-154. *)
Definition print_store (s : store) : seq char :=
  flatten [seq print_key kn.1 ++ c_colon :: dec kn.2 ++ [:: c_nl] | kn <- s].

(** FileStore::insert of a block, /repo/src/store/file_store.cc:134-144, and of a record,
    146-155. *)
Definition print_block (b : block) : seq char :=
  flatten [seq dec bd.1 ++ c_space :: dec bd.2 ++ [:: c_space] | bd <- b].
Definition print_record (r : seq block) : seq char :=
  flatten [seq print_block b ++ [:: c_nl] | b <- r].

(** ** Input *)

(** An input stream: the characters not yet read, [eofbit] and [failbit].  The streams are those of
    /repo/src/store/curve_data.cc:95, /repo/src/store/store.cc:124-125 and /repo/src/store/file_store.cc:101-131. *)
Record istr := IStr { i_rest : seq char; i_eof : bool; i_fail : bool }.
Definition open_text (s : seq char) : istr := IStr s false false.
(** An [fstream] whose file could not be opened, /repo/src/store/file_store.cc:55 and
    /repo/src/executables/merger.cc:155-156. *)
Definition open_failed : istr := IStr [::] false true.
Definition good (st : istr) : bool := ~~ i_eof st && ~~ i_fail st.

Fixpoint take_while (P : pred char) (s : seq char) : seq char :=
  if s is c :: s' then if P c then c :: take_while P s' else [::] else [::].
Fixpoint drop_while (P : pred char) (s : seq char) : seq char :=
  if s is c :: s' then if P c then drop_while P s' else s else [::].
Definition value (ds : seq char) : nat := foldl (fun a d => 10 * a + (d - c_zero)) 0 ds.

(** [stream >> x] for [int x], as used in /repo/src/store/curve_data.cc:101,118 and
    /repo/src/store/file_store.cc:111; [old] is the value of [x] before, [None] if not initialised. *)
Definition read_int (M : nat) (st : istr) (old : option int) : istr * option int :=
  if ~~ good st then (IStr (i_rest st) (i_eof st) true, old)
  else
    let r := drop_while is_space (i_rest st) in
    if r is c :: r' then
      let r1 := if (c == c_minus) || (c == c_plus) then r' else r in
      let ds := take_while is_digit r1 in
      let r2 := drop_while is_digit r1 in
      let eof := r2 == [::] in
      if ds == [::] then (IStr r2 eof true, Some 0%R)
      else
        let n := value ds in
        if c == c_minus then
          if n <= M then (IStr r2 eof false, Some (- Posz n)%R) else (IStr r2 eof true, Some (- Posz M)%R)
        else
          if n < M then (IStr r2 eof false, Some (Posz n)) else (IStr r2 eof true, Some (Posz M.-1))
    else (IStr [::] true true, old).

(** [stream.peek()], /repo/src/store/curve_data.cc:104,121 and /repo/src/store/file_store.cc:126; [None] is EOF. *)
Definition peek (st : istr) : istr * option char :=
  if good st then
    if i_rest st is c :: _ then (st, Some c) else (IStr [::] true false, None)
  else (IStr (i_rest st) (i_eof st) true, None).

(** [stream.ignore(1)], /repo/src/store/curve_data.cc:106,110,123. *)
Definition ignore1 (st : istr) : istr :=
  if good st then
    if i_rest st is _ :: r then IStr r false false else IStr [::] true false
  else IStr (i_rest st) (i_eof st) true.

(** [getline(stream, str, delim)], /repo/src/store/store.cc:124,128-129 and /repo/src/store/file_store.cc:108;
    [old] is the previous value of [str]. *)
Definition getline (delim : char) (st : istr) (old : seq char) : istr * seq char :=
  if good st then
    let l := take_while (fun c => c != delim) (i_rest st) in
    if drop_while (fun c => c != delim) (i_rest st) is _ :: r then (IStr r false false, l)
    else (IStr [::] true (l == [::]), l)
  else (IStr (i_rest st) (i_eof st) true, old).

(** Conversion of [int] to [unsigned int], /repo/src/store/curve_data.cc:102 and
    /repo/src/store/file_store.cc:112. *)
Definition to_unsigned (W : nat) (z : int) : nat := `|(z %% W)%Z|%N.

(** The first loop of ValueType(const string &), /repo/src/store/curve_data.cc:100-115; the second
    component of the result is [None] if the function returns there. *)
Fixpoint parse_ram (M W fuel : nat) (st : istr) (old : option int) (acc : seq nat)
    : res (seq nat * option (istr * option int)) :=
  if fuel is n.+1 then
    let: (st, v) := read_int M st old in
    if v is Some z then
      let acc := rcons acc (to_unsigned W z) in
      let: (st, d) := peek st in
      if d == Some c_comma then parse_ram M W n (ignore1 st) v acc
      else if d == Some c_semi then Ok (acc, Some (ignore1 st, v))
      else Ok (acc, None)
    else Undef
  else OutOfFuel.

(** The second loop, /repo/src/store/curve_data.cc:117-128. *)
Fixpoint parse_offsets (M fuel : nat) (st : istr) (old : option int) (acc : seq int) : res (seq int) :=
  if fuel is n.+1 then
    let: (st, v) := read_int M st old in
    if v is Some z then
      let acc := rcons acc z in
      let: (st, d) := peek st in
      if d == Some c_comma then parse_offsets M n (ignore1 st) v acc else Ok acc
    else Undef
  else OutOfFuel.

(** ExplicitRamificationHasseWeil::ValueType(const string &), /repo/src/store/curve_data.cc:90-129. *)
Definition parse_key (M W : nat) (str : seq char) : res key :=
  let fuel := (size str).+1 in
  ro <- parse_ram M W fuel (open_text str) None [::] ;;
  if ro.2 is Some (st, v) then
    offsets <- parse_offsets M fuel st v [::] ;;
    Ok (ro.1, offsets)
  else Ok (ro.1, [::]).

(** Count::ValueType(const string &), /repo/src/store/store_data.cc:31-38: [fmpz_set_str] leaves the
    initial zero if the text is not a number.  Signs and white space, which FLINT accepts, are
    never written and are treated as malformed here. *)
Definition parse_count (str : seq char) : nat :=
  if (str != [::]) && all is_digit str then value str else 0.

(** Store::extract, /repo/src/store/store.cc:113-139. *)
Fixpoint extract_store (M W fuel : nat) (st : istr) (line : seq char) (s : store) : res store :=
  if fuel is n.+1 then
    let: (st, line) := getline c_nl st line in
    if i_fail st then Ok s
    else
      let: (ls, curve_str) := getline c_colon (open_text line) [::] in
      let: (ls, store_str) := getline c_nl ls [::] in
      k <- parse_key M W curve_str ;;
      extract_store M W n st line (merge_entry s (k, parse_count store_str))
  else OutOfFuel.

(** FileStore::extract of a block, /repo/src/store/file_store.cc:98-115: the loop of 111-112 and the
    whole. *)
Fixpoint extract_bounds (M W fuel : nat) (ls : istr) (lbd ubd : option int) (b : block) : res block :=
  if fuel is n.+1 then
    let: (ls, lbd) := read_int M ls lbd in
    let: (ls, ubd) := read_int M ls ubd in
    if i_fail ls then Ok b
    else match lbd, ubd with
         | Some l, Some u => extract_bounds M W n ls lbd ubd (rcons b (to_unsigned W l, to_unsigned W u))
         | _, _ => Undef
         end
  else OutOfFuel.
Definition extract_block (M W : nat) (st : istr) : res (istr * block) :=
  let: (st, line) := getline c_nl st [::] in
  b <- extract_bounds M W (size line).+1 (open_text line) None None [::] ;;
  Ok (st, b).

(** FileStore::extract of a record, /repo/src/store/file_store.cc:117-132. *)
Fixpoint extract_blocks (M W fuel : nat) (st : istr) (r : seq block) : res (seq block) :=
  if i_eof st then Ok r
  else if fuel is n.+1 then
    stb <- extract_block M W st ;;
    extract_blocks M W n stb.1 (os_insert block_lt r stb.2)
  else OutOfFuel.
Definition extract_record (M W fuel : nat) (st : istr) (r : seq block) : res (seq block) :=
  extract_blocks M W fuel (peek st).1 r.
