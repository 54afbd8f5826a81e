(** A test by computation for the checks of a table. *)
Set Warnings "-notation-overridden,-ambiguous-paths".
From mathcomp Require Import all_ssreflect ssralg ssrnum ssrint zify.
From Verif Require Import Res OMap Store StoreSpec TableSpec TableProofs.

Set Implicit Arguments.
Unset Strict Implicit.
Unset Printing Implicit Defensive.

(** [row_check], computed. *)
Definition row_test (q genus : nat) (marked : bool) (n : nat) (k : key) : bool :=
  [&& sorted leq k.1, all (ltn 0) k.1, sumn k.1 == 2 * genus + 2, marked ==> (1 \in k.1), size k.2 == n &
    all (fun j => (absz (nth 0%R k.2 j) <= q ^ j.+1 + 1) &&
      (odd (absz (nth 0%R k.2 j)) == odd (sumn [seq e <- k.1 | e %| j.+1]))) (iota 0 n)].

Lemma row_testP q genus marked n k : row_test q genus marked n k -> row_check q genus marked n k.
Proof.
case/and5P=> H1 H2 /eqP H3 /implyP H4 /andP[/eqP H5 /allP H6]; split; rewrite ?H1 //.
by move=> j Hj; have := H6 j; rewrite mem_iota => /(_ Hj) /andP[H /eqP H'].
Qed.

Lemma table_test q genus marked n (T : store) : is_map T ->
  foldr (fun kn m => kn.2 + m) 0 T == grand_total q genus marked ->
  all (fun kn => (twist kn.1, kn.2) \in T) T ->
  all (fun kn => (0 < kn.2) && row_test q genus marked n kn.1) T ->
  all (fun j => odd j.+1 ==> (foldr (fun kn m => (kn.2)%:Z * nth 0 kn.1.2 j + m) 0 T == 0)%R) (iota 0 n) ->
  table_check q genus marked n T.
Proof.
move=> HT /eqP H1 H2 /allP H3 /allP H4; split.
- by rewrite -H1; elim: (T) => [|kn l IH]; rewrite ?big_nil ?big_cons //= IH.
- exact: twist_test.
- by move=> kn /H3/andP[H /row_testP].
move=> j Hj Ho; have := H4 j; rewrite mem_iota => /(_ Hj) /implyP /(_ Ho) /eqP E; rewrite -[RHS]E.
by elim: (T) => [|kn l IH]; rewrite ?big_nil ?big_cons //= IH.
Qed.
