(** C46, C57, C58 for the real numbers and the square root of real numbers. This file, the geometry (Props_GeomV), the seismic set-up (Props_Elastic), the faults (Props_Fault) and the time prediction (Props_AderR) use the axioms of the standard library's real numbers. *)
From Coq Require Import List Arith Bool Lia Reals Lra Field.
From Verif Require Import Util Fwave Props_Fwave.
Import ListNotations.
Open Scope R_scope.

Definition rltb (a b : R) : bool := if Rlt_dec a b then true else false.
Lemma rltb_lt a b : rltb a b = true <-> a < b.
Proof. unfold rltb. destruct (Rlt_dec a b); split; auto; discriminate. Qed.
Lemma rltb_le a b : rltb a b = false <-> b <= a.
Proof. unfold rltb. destruct (Rlt_dec a b); split; try discriminate; intros; lra. Qed.

Lemma R_ofield : ofield 0 1 (1 / 2) Rplus Rminus Rmult Rdiv Ropp Rinv rltb.
Proof.
  split; intros *; rewrite ?rltb_lt, ?rltb_le; try lra.
  - exact Rfield.
  - apply Rmult_lt_0_compat.
Qed.

Lemma sqrt_pos' x : rltb 0 x = true -> rltb 0 (sqrt x) = true.
Proof. rewrite !rltb_lt. apply sqrt_lt_R0. Qed.

(** f-wave solver and time step for real numbers, with the solver's default gravity *)
Definition gR : R := 980665 / 100000.
Definition fwaveR := fwave 0 1 (1 / 2) Rplus Rminus Rmult Rdiv Ropp sqrt rltb gR.
Definition stepR := stepFV 0 1 (1 / 2) Rplus Rminus Rmult Rdiv Ropp rltb sqrt gR.
Definition getR (v : list R) (cr : nat) : R := nth cr v 0.

Lemma gR_pos : rltb 0 gR = true.
Proof. apply rltb_lt. unfold gR. lra. Qed.

Theorem C46_reals nCr hL hR huL huR bL bR g cr : (cr < nCr)%nat -> 0 < getR hL cr -> 0 < getR hR cr ->
  let '(nL, nR) := fwaveR nCr hL hR huL huR bL bR g in
  let flux h hu := hu * hu / h + 1 / 2 * g * h * h in
  getR (fst nL) cr + getR (fst nR) cr = getR huR cr - getR huL cr /\
  getR (snd nL) cr + getR (snd nR) cr = flux (getR hR cr) (getR huR cr) - flux (getR hL cr) (getR huL cr) + g * ((getR hL cr + getR hR cr) / 2) * (bR - bL).
Proof.
  intros H1 H2 H3. assert (X := C46_conservation 0 1 (1 / 2) Rplus Rminus Rmult Rdiv Ropp Rinv rltb R_ofield sqrt gR sqrt_pos' gR_pos nCr hL hR huL huR bL bR g cr H1). unfold fwaveR, getR, get in *.
  destruct (fwave _ _ _ _ _ _ _ _ _ _ _ _ _ _ _ _ _ _ _) as (nL & nR). destruct X as (X1 & X2); [apply rltb_lt; auto|apply rltb_lt; auto|]. split; [exact X1|]. rewrite X2. lra.
Qed.

Lemma sigma_zeros n f : (forall k, (k < n)%nat -> f k = 0) -> sigma 0 Rplus n f = 0.
Proof. induction n as [|n IH]; intros H; cbn; [reflexivity|]. rewrite IH by (intros; apply H; lia). rewrite H by lia. lra. Qed.

(** conservation of water without outflow boundaries *)
Theorem C57_reals nCr nDi nFas nEl nFa dT faEl elFa chars vol bath out dofs : mesh_ok 0 nDi nFas nEl nFa faEl chars elFa -> closed 0 1 Rplus Rmult Ropp nDi nFas nEl faEl chars elFa ->
  state_ok nDi nEl dofs bath -> water 0 rltb nCr nEl dofs bath -> length vol = nEl -> (forall el, (el < nEl)%nat -> nth el vol 0 <> 0) -> length out = nFa ->
  (forall fa, (fa < nFa)%nat -> fOut (nth fa chars (dface 0)) = false) ->
  exists dofs', stepR nCr nDi nFas nEl nFa dT faEl elFa chars vol bath out dofs = Ok dofs' /\
  forall cr, (cr < nCr)%nat -> sigma 0 Rplus nEl (fun el => nth el vol 0 * hOf 0 dofs' el cr) = sigma 0 Rplus nEl (fun el => nth el vol 0 * hOf 0 dofs el cr).
Proof.
  intros MO CL SO WA LV VP LO NO. destruct (C57_water 0 1 (1 / 2) Rplus Rminus Rmult Rdiv Ropp Rinv rltb R_ofield sqrt gR sqrt_pos' gR_pos nCr nDi nFas nEl nFa dT faEl elFa chars vol bath out dofs MO CL SO WA LV VP LO) as (d & E & _ & V).
  exists d. split; [exact E|]. intros cr Hc. rewrite (V cr Hc). rewrite (sigma_zeros nFa); [lra|]. intros fa Hf. cbv zeta. rewrite NO by auto. reflexivity.
Qed.

Print Assumptions C46_reals.
Print Assumptions C57_reals.

(** dam break *)
Example C46_reals_ex : (0 < 1)%nat /\ 0 < getR [10] 0 /\ 0 < getR [8] 0.
Proof. cbn. repeat split; [lia|lra|lra]. Qed.
