(** Proofs about results that were merged between runs: the checks of tables and the certificate by the total. *)
Set Warnings "-notation-overridden,-ambiguous-paths".
From mathcomp Require Import all_ssreflect ssralg ssrnum ssrint poly finalg zify.
From Verif Require Import Res ResFacts FinField OMap OMapFacts OMapPerm CurveSpec Store StoreSpec StoreProofs Text TextSpec TextProofs
  Files FilesSpec FilesProofs Pool Standalone StandaloneSpec Account StandaloneProofs Mpi MpiSpec MpiProofs Config Worker WorkerSpec
  WorkerProofs EndToEnd Main MainSpec MainRuns MainProofs TornProofs TableSpec TableProofs DiskSpec Disk DiskProofs TidySpec TidyProofs.

Set Implicit Arguments.
Unset Strict Implicit.
Unset Printing Implicit Defensive.

Section Program.
Variables (W S M : nat).
Variable flint : nat -> nat -> flint_field.
Variable is_squarefree : forall p r, seq (ff_field (flint p r)) -> bool.
Variable factor : nat -> nat -> seq nat -> seq (nat * nat).
Hypothesis HMW : 2 * M <= W.
Hypothesis HWS : W <= S.
Variable dir : seq char -> nat.

Local Notation sound := (sound M is_squarefree factor).
Local Notation proper := (proper W S M is_squarefree factor dir).
Local Notation contribution := (contribution W S is_squarefree factor).
Local Notation tidied := (tidied W S M is_squarefree factor dir).

Lemma similar_certified fuel cs jobs k fs fs' : proper fuel cs -> jobs_of W dir fuel cs jobs ->
  k < size cs -> sound (nth c0 cs k) -> consistent (contribution fuel cs) jobs fs ->
  perm_eq (recorded fs (nth j0 jobs k).1.1) (nth j0 jobs k).2 ->
  add_up (contribution fuel cs) fs (nth j0 jobs k).1.1 (nth j0 jobs k).1.2 (nth j0 jobs k).2 ->
  similar M fs fs' -> certified M W flint dir (nth c0 cs k) fs'.
Proof.
move=> Hp Hj Hk Hso Hc H1 H2 HS d0 ids cuts d d' listing Hd0 Hrep Hsh Hl.
have Hws := well_saved_at HMW HWS Hp Hj Hk Hso Hc (fun b => etrans (esym (perm_mem H1 b))).
have [bs [kns [HR HC]]] := sound_computes HMW HWS Hso; have [_ He] := proj2 Hp k Hk; have C := HC _ He.
have Eb := sound_job Hj Hk C; have [Ej _] := proj2 Hj k Hk; rewrite Ej Eb /= in H1 H2.
have [S1 S2 S3] := HS (dir (g_path (nth c0 cs k))).
have Hl0 : perm_eq listing (names d) by rewrite -Hsh.1.
have [Hun Hpl _] := Hd0; have [svs [_ _ L3 L4]] := replay_ok Hun Hpl (fresh_holds Hd0) Hrep.
have Hw : all (well_saved M) svs by rewrite well_savedE (perm_all _ L4); apply: S3; apply: Hws.
have [N HN] := short_exists svs; have Hho := holds_perm Hl0 L3; have HMW' := half_le HMW.
have [R [T [T' [E M2 HT HR' Hb]]]] := short_merge HMW' Hsh Hho Hw; have M1 := HT.1.
have HA : add_up (contribution fuel cs) fs' (dir (g_path (nth c0 cs k))) k bs by move=> k'; rewrite -S2.
have HE := saves_expected HR C HA L4 HT.
have [Ha Hff _] := Hso; have Ho := EndToEnd.odd_field Ha Hff.
have Eq : g_prime (nth c0 cs k) ^ g_exponent (nth c0 cs k) = #|field_of flint (nth c0 cs k)| by case: Hff.
have Hg : 0 < g_genus (nth c0 cs k) by case: (Ha) => _ /and4P[].
have Et : total T = grand_total (g_prime (nth c0 cs k) ^ g_exponent (nth c0 cs k)) (g_genus (nth c0 cs k)) (g_marked (nth c0 cs k)).
  by rewrite Eq; exact: (T_total Ho Hg M1 HE).
have [B1 B2] := total_below M1 M2 Hb.
exists T', R, N; split=> //.
- by move=> fuel' /HN/E[].
- by rewrite -Et.
move=> L emb HL right.
have ER k' : count_of T k' = right k'.
  by rewrite /count_of HE /expected /right brute_forceE //; case: eqP.
split=> [k'|Htot k']; rewrite -ER; [exact: Hb|by apply: B2; rewrite Htot].
Qed.

Lemma tidy_checks w fuel o cs calls e : main M W dir w fuel o = Ok (Ran cs calls e) -> proper fuel cs ->
  forall fs, tidied cs fs ->
  (forall kinds acts s, run (contribution fuel cs) (start kinds fs calls) acts = Ok s -> through e s ->
    forall i, promised e cs i -> sound (nth c0 cs i) ->
      checked M W dir (nth c0 cs i) (files s) /\ certified M W flint dir (nth c0 cs i) (files s)) /\
  (forall kinds acts s, 0 < size kinds -> mrun (contribution fuel cs) (mstart kinds fs calls) acts = Ok s -> mthrough e s ->
    forall i, promised e cs i -> sound (nth c0 cs i) ->
      checked M W dir (nth c0 cs i) (m_files s) /\ certified M W flint dir (nth c0 cs i) (m_files s)).
Proof.
move=> Hm Hp; apply: (@tidy_gen W S M flint is_squarefree factor HMW HWS dir
  (fun c F => checked M W dir c F /\ certified M W flint dir c F) w fuel o cs calls e Hm Hp) => jobs k F F' HJ Hk Hso K1 K2 K3 HS.
split; last exact: (similar_certified Hp HJ Hk Hso K1 K2 K3 HS).
by case: (Hso) => Ha Hff _; apply: (counted_checked Ha Hff); exact: (similar_counted HMW HWS Hp HJ Hk Hso K1 K2 K3 HS).
Qed.
End Program.
