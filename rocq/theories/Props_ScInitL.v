(** C104: the generated sub-grids of lines in the solver. *)
From Coq Require Import List Arith Bool ZArith Lia.
From Verif Require Import Util ScProjSpec ScQuadSpec ScLineSpec ScLineV Props_ScLine ScInit ScInitSpec ScInitV Props_ScInit.
Import ListNotations.
Open Scope nat_scope.

Lemma left_ok n c v : onLeft n c v -> (0 <= v < Z.of_nat n + 2)%Z.
Proof. unfold onLeft. destruct (lineCell n c); [lia|]. intros (c' & H & -> & _). lia. Qed.
Lemma right_ok n c v : onRight n c v -> (0 <= v < Z.of_nat n + 2)%Z.
Proof. unfold onRight. destruct (_ =? n); [lia|]. intros (c' & H & -> & _). lia. Qed.
Lemma short_pos v : (0 <= v)%Z -> short v = v. Proof. intros H. unfold short. destruct (Z.eqb_spec v (-1)); [lia|reflexivity]. Qed.
Lemma rows_table {A} (n m : nat) (t : list (list A)) : length t = n -> (forall i, i < n -> exists r, nth_error t i = Some r /\ length r = m) -> table2 n m t.
Proof. intros L H. split; [exact L|]. intros r Hr. apply In_nth_error in Hr. destruct Hr as (i & Hi). destruct (H i) as (r' & E & Lr); [apply nth_error_Some in E || (rewrite <- L; apply nth_error_Some; congruence)|]. congruence. Qed.
Lemma rows_ids n (t : list (list Z)) : length t = n -> (forall i, i < n -> exists r, nth_error t i = Some r /\ forall v, In v r -> idOk v) -> idsOk t.
Proof. intros L H r v Hr Hv. apply In_nth_error in Hr. destruct Hr as (i & Hi). destruct (H i) as (r' & E & I); [rewrite <- L; apply nth_error_Some; congruence|]. apply I. congruence. Qed.
Lemma len_sv deg : length (rows3 (ScLine.scSvL deg)) = 2 * deg + 1 + 2.
Proof. destruct deg as [|deg]; [reflexivity|]. unfold ScLine.scSvL, rows3. change (S deg =? 0) with false. cbv iota zeta beta. rewrite !app_length, map_length, zrange_len. unfold ScLine.nScs. cbn [length]. lia. Qed.
Lemma len_ty deg : length (rows2 (ScLine.scTySfL deg)) = 2 * deg + 1.
Proof. destruct deg as [|deg]; [reflexivity|]. unfold ScLine.scTySfL, rows2. change (S deg =? 0) with false. cbn [fst snd]. rewrite !app_length, map_length, seq_length. unfold ScLine.nScs. cbn [length]. lia. Qed.

(** The solver's tables of a line of any degree are those of the row of sub-cells, whose positions are given by [lineCell]. *)
Theorem C104_lines : forall deg o, let n := 2 * deg + 1 in (Z.of_nat n < 65534)%Z -> shaped 1 1 2 2 1 n o ->
  exists g c, built (rows3 (ScLine.scSvL deg)) (g_scsv g) /\ built (rows3 (ScLine.scSfScL deg)) (g_scsfsc g) /\ built (map (map Z.of_nat) (rows2 (ScLine.scTySfL deg))) (g_sctysf g) /\ built [[0%Z]] (g_scdgad g) /\
    connect 1 1 2 2 1 n g o = Ok c /\
    (forall k, k < n -> entry (scSv c) k 0 (Z.of_nat (lineCell n k)) /\ entry (scSv c) k 1 (Z.of_nat (lineCell n k) + 1)%Z /\
       (exists l r, entry (scSfSc c) k 0 l /\ entry (scSfSc c) k 1 r /\ onLeft n k l /\ onRight n k r) /\
       entry (scTySf c) k 0 (if lineCell n k =? 0 then 0%Z else 4%Z) /\ entry (scTySf c) k 1 (if S (lineCell n k) =? n then 1%Z else 5%Z)) /\
    (forall fa, fa < 2 -> exists k, k < n /\ lineCell n k = endCell n fa /\ entry (faSfSc c) fa 0 (Z.of_nat k)) /\ scDgAd c = [[0%Z]].
Proof.
  intros deg o n B O. assert (N : 0 < n) by (unfold n; lia). set (sv := rows3 (ScLine.scSvL deg)). set (sc := rows3 (ScLine.scSfScL deg)). set (ty := map (map Z.of_nat) (rows2 (ScLine.scTySfL deg))).
  assert (LV : length sv = n + 2 * 1) by apply len_sv. assert (LS : length sc = n + 2 * 1) by apply len_sfsc. assert (LT : length ty = n) by (unfold ty; rewrite map_length; apply len_ty).
  assert (TB := fun k => C100_tables deg k). cbv zeta in TB. fold n in TB. assert (GB := fun fa => C100_ghosts deg fa). cbv zeta in GB. fold n in GB.
  assert (LL : forall k, k < n -> lineCell n k < n) by (apply (C100_numbering deg)).
  assert (LF : length (fst (fst (ScLine.scSvL deg)) ++ snd (fst (ScLine.scSvL deg))) = n).
  { unfold sv, rows3 in LV. assert (Q : length (snd (ScLine.scSvL deg)) = 2) by (unfold ScLine.scSvL; destruct (deg =? 0); reflexivity). destruct (ScLine.scSvL deg) as [[a b] r]. cbn [fst snd] in *. rewrite !app_length in *. lia. }
  assert (V1 : forall k, k < n -> nth_error sv k = Some [Z.of_nat (lineCell n k); Z.of_nat (lineCell n k) + 1]%Z).
  { intros k Hk. destruct (TB k Hk) as (A & _). unfold sv, rows3. destruct (ScLine.scSvL deg) as [[a b] r]. cbn [fst snd] in *. rewrite app_assoc, nth_error_app1 by lia. exact A. }
  assert (V2 : forall fa, fa < 2 -> exists row, nth_error sv (n + fa) = Some row /\ length row = 2 /\ forall v, In v row -> idOk v).
  { intros fa Hf. destruct (GB fa Hf) as (_ & _ & row & A & R). exists row. split.
    - unfold sv, rows3. destruct (ScLine.scSvL deg) as [[a b] r]. cbn [fst snd] in *. rewrite app_assoc, nth_error_app2 by lia. rewrite LF. replace (n + fa - n) with fa by lia. exact A.
    - assert (E : endVertex n fa <= n) by (unfold endVertex; destruct fa; lia). unfold idOk. destruct R as [->|(_ & _ & ->)]; (split; [reflexivity|]); intros v [<-|[<-|[]]]; lia. }
  assert (SPLIT : forall k, k < n + 2 * 1 -> k < n \/ exists fa, fa < 2 /\ k = n + fa) by (intros k Hk; destruct (Nat.lt_ge_cases k n); [auto|right; exists (k - n); lia]).
  assert (S2 : forall fa, fa < 2 -> exists k, k < n /\ lineCell n k = endCell n fa /\ nth_error sc (n + fa) = Some [Z.of_nat k; -1]%Z) by (intros fa Hf; destruct (GB fa Hf) as (_ & X & _); exact X).
  assert (T1 : table2 (n + 2 * 1) 2 sv). { apply rows_table; [exact LV|]. intros k Hk. destruct (SPLIT k Hk) as [H|(fa & Hf & ->)]; [eexists; split; [apply V1; auto|reflexivity]|]. destruct (V2 fa Hf) as (row & A & L & _). eauto. }
  assert (I1 : idsOk sv). { apply (rows_ids _ _ LV). intros k Hk. destruct (SPLIT k Hk) as [H|(fa & Hf & ->)]; [eexists; split; [apply V1; auto|]; specialize (LL k H); unfold idOk; intros v [<-|[<-|[]]]; lia|]. destruct (V2 fa Hf) as (row & A & _ & I). eauto. }
  assert (T2 : table2 (n + 2 * 1) 2 sc). { apply rows_table; [exact LS|]. intros k Hk. destruct (SPLIT k Hk) as [H|(fa & Hf & ->)]; [destruct (TB k H) as (_ & (l & r & A & _) & _); eauto|]. destruct (S2 fa Hf) as (c & _ & _ & A). eauto. }
  assert (I2 : idsOk sc). { apply (rows_ids _ _ LS). intros k Hk. destruct (SPLIT k Hk) as [H|(fa & Hf & ->)].
    - destruct (TB k H) as (_ & (l & r & A & OL & OR) & _). apply left_ok in OL. apply right_ok in OR. eexists. split; [exact A|]. unfold idOk. intros v [<-|[<-|[]]]; lia.
    - destruct (S2 fa Hf) as (c & Hc & _ & A). eexists. split; [exact A|]. unfold idOk. intros v [<-|[<-|[]]]; lia. }
  assert (TY : forall k, k < n -> nth_error ty k = Some [(if lineCell n k =? 0 then 0%Z else 4%Z); (if S (lineCell n k) =? n then 1%Z else 5%Z)]).
  { intros k Hk. destruct (TB k Hk) as (_ & _ & A). unfold ty. rewrite nth_error_map, A. cbn [option_map map]. destruct (lineCell n k =? 0), (S (lineCell n k) =? n); reflexivity. }
  assert (T3 : table2 n 2 ty) by (apply rows_table; [exact LT|]; intros k Hk; eexists; split; [apply TY; auto|reflexivity]).
  assert (I3 : idsOk ty). { apply (rows_ids _ _ LT). intros k Hk. eexists. split; [apply TY; auto|]. unfold idOk. intros v [<-|[<-|[]]]; [destruct (_ =? 0)|destruct (_ =? n)]; lia. }
  assert (T4 : table2 (orients 1 1) 1 [[0%Z]]) by (split; [reflexivity|intros r [<-|[]]; reflexivity]).
  assert (I4 : idsOk [[0%Z]]) by (intros r v [<-|[]] [<-|[]]; unfold idOk; lia).
  assert (G : ghostsOk (-1) 2 1 n sc).
  { intros fa sf Hf Hs. cbv zeta. replace (n + fa * 1 + sf) with (n + fa) by lia. destruct (S2 fa Hf) as (k & Hk & _ & A). split; [exists (Z.of_nat k); split; [eexists; split; [exact A|reflexivity]|lia]|]. intros f2 H2. replace f2 with 1 by lia. eexists. split; [exact A|reflexivity]. }
  destruct (C104_connect 1 1 2 2 1 n sv sc ty [[0%Z]] o) as (g & c & B1 & B2 & B3 & B4 & E & Q1 & Q2 & Q3 & Q4 & TF & F); auto.
  exists g, c. split; [exact B1|]. split; [exact B2|]. split; [exact B3|]. split; [exact B4|]. split; [exact E|]. split; [|split].
  - intros k Hk. assert (A := V1 k Hk). destruct (TB k Hk) as (_ & (l & r & A2 & OL & OR) & _). assert (PL := left_ok _ _ _ OL). assert (PR := right_ok _ _ _ OR). assert (A3 := TY k Hk). rewrite Q1, Q2, Q3.
    split; [rewrite <- (short_pos (Z.of_nat (lineCell n k))) by lia; apply map_entry; eexists; split; [exact A|reflexivity]|]. split; [rewrite <- (short_pos (Z.of_nat (lineCell n k) + 1)) by lia; apply map_entry; eexists; split; [exact A|reflexivity]|]. split.
    + exists l, r. split; [rewrite <- (short_pos l) by lia; apply map_entry; eexists; split; [exact A2|reflexivity]|]. split; [rewrite <- (short_pos r) by lia; apply map_entry; eexists; split; [exact A2|reflexivity]|]. auto.
    + split; [rewrite <- (short_pos (if lineCell n k =? 0 then 0%Z else 4%Z)) by (destruct (lineCell n k =? 0); lia)|rewrite <- (short_pos (if S (lineCell n k) =? n then 1%Z else 5%Z)) by (destruct (S (lineCell n k) =? n); lia)]; apply map_entry; eexists; (split; [exact A3|reflexivity]).
  - intros fa Hf. destruct (S2 fa Hf) as (k & Hk & Ek & A). exists k. split; [exact Hk|]. split; [exact Ek|]. apply (F fa 0 (Z.of_nat k) Hf); [lia|]. replace (n + fa * 1 + 0) with (n + fa) by lia. eexists. split; [exact A|reflexivity].
  - rewrite Q4. reflexivity.
Qed.
Print Assumptions C104_lines.
Example C104_lines_ex : let n := 2 * 1 + 1 in (Z.of_nat n < 65534)%Z /\ shaped 1 1 2 2 1 n exO /\ rows3 (ScLine.scSfScL 1) = exSc /\ map (map Z.of_nat) (rows2 (ScLine.scTySfL 1)) = exTy.
Proof. cbv zeta. split; [reflexivity|]. split; [|split; reflexivity]. repeat split; try reflexivity; intros r Hr; cbn in Hr; repeat (destruct Hr as [<-|Hr]; [reflexivity|]); destruct Hr. Qed.
