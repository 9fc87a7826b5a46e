(** The invariant holds in every reachable state of the scheduling model. *)
From Verif Require Import Util SchedModel SchedProofs.

Ltac e6 e H := destruct e as [|[|[|[|[|[|e]]]]]]; [ .. | exfalso; lia ].

(** split the guard of a block *)
Ltac gcase :=
  match goal with
  | [ |- context [if ?b then _ else _] ] =>
      let G := fresh "G" in destruct b eqn:G
  end.

Ltac gsplit :=
  repeat match goal with
  | [ H : _ && _ = true |- _ ] => apply andb_prop in H; destruct H
  | [ H : cfe _ _ _ = true |- _ ] => apply cfe_iff in H
  | [ H : (_ <=? _) = true |- _ ] => apply Nat.leb_le in H
  end.

Definition ok_step (c : cfg) (s : rst) (o : out) : Prop :=
  exists s' ev, o = Next s' ev /\ Inv c s' /\ pc s' = pc s /\
                (forall g' e' w, stat s' g' e' w = IPR -> stat s g' e' w = IPR).

Lemma ok_skip c s : Inv c s -> ok_step c s (Next s None).
Proof. intros H. exists s, None. auto. Qed.

Lemma ok_with c s g t' ev : Inv c (with_tg s g t') -> ok_step c s (Next (with_tg s g t') ev).
Proof. intros H. exists (with_tg s g t'), ev. auto. Qed.

Lemma ok_rdy c s g e t' :
  (exists s', set_rdy c s g e t' = Next s' None /\ Inv c s' /\ tg s' = fset (tg s) g t' /\ pc s' = pc s /\
             (forall g' e' w, stat s' g' e' w = IPR -> stat s g' e' w = IPR) /\
             fin s' = fin s /\ nFin s' = nFin s /\ sbf s' = sbf s) ->
  ok_step c s (set_rdy c s g e t').
Proof. intros (s' & H1 & H2 & H3 & H4 & H5 & _). exists s', None. auto. Qed.

(** the groups as smaller / larger group for blocks which leave nTs unchanged *)
Ltac psmall :=
  let Hg := fresh in let HP := fresh in
  intros Hg HP; eapply pair_small; [exact HP | cbn; try lia .. | ];
  unfold started; cbn; try (clear; lia); try lia.
Ltac plarge :=
  let Hg := fresh in let HP := fresh in
  intros Hg HP; eapply pair_large; [exact HP | cbn; try lia .. | ];
  unfold started; cbn; try (clear; lia); try lia.

(** packages of the group are unaffected *)
Ltac pkgs :=
  let e := fresh "e" in let w := fresh "w" in let He := fresh "He" in let Hw := fresh "Hw" in let K := fresh "K" in
  intros e w He Hw; e6 e He; unfold PkgOk; cbn;
  repeat match goal with [ H : cf _ _ = _ |- _ ] => rewrite H end; cbn; auto.

Lemma run_blk_inv c mpi s g b : Inv c s -> g < nT c -> ok_step c s (run_blk c mpi s g b).
Proof.
  intros HI Hg. pose proof HI as (I1 & I2 & I3 & I4 & I5 & I6).
  pose proof (I1 g Hg) as L. pose proof (Loc_facts _ _ L) as F.
  set (N := nReq c g) in *.
  destruct F as (F0 & F1 & F2 & F3 & F4 & F5 & F6 & F6' & F7 & F8 & F9 & F10 & F11 & F12).
  destruct b; unfold run_blk.
  - (* Binit *) gcase; [|now apply ok_skip]. gsplit.
    apply ok_with, with_tg_inv; [exact HI|exact Hg| | | | ].
    + apply L_init; auto. apply nReq_pos.
    + psmall.
    + plarge.
    + intros e w He Hw. specialize (I3 g e w Hg He Hw).
      assert (cf (tg s g) e = 9).
      { clear - L G He. unfold cfMax in G. open_loc; e6 e He; cbn in *; lia. }
      unfold PkgOk. rewrite H. cbn. e6 e He; cbn; auto.
  - (* Bloc0 *) gcase; [|now apply ok_skip]. gsplit.
    pose proof (allFin_spec _ _ _ _ H0) as AF.
    apply ok_with, with_tg_inv; [exact HI|exact Hg| | | | ].
    + apply L_loc0; auto.
    + psmall.
    + plarge.
    + pkgs. rewrite AF by auto. auto.
  - (* Bloc1 *) gcase; [|now apply ok_skip]. gsplit.
    pose proof (allFin_spec _ _ _ _ H0) as AF.
    apply ok_with, with_tg_inv; [exact HI|exact Hg| | | | ].
    + apply L_loc1; auto.
    + psmall.
    + plarge.
    + pkgs. rewrite AF by auto. auto.
  - (* Bsrc2 *) gcase; [|now apply ok_skip]. gsplit.
    pose proof (allFin_spec _ _ _ _ H0) as AF.
    apply ok_with, with_tg_inv; [exact HI|exact Hg| | | | ].
    + apply L_src2; auto.
    + psmall.
    + plarge.
    + pkgs. rewrite AF by auto. auto.
  - (* Bsrc3 *) gcase; [|now apply ok_skip]. gsplit.
    pose proof (allFin_spec _ _ _ _ H0) as AF.
    apply ok_with, with_tg_inv; [exact HI|exact Hg| | | | ].
    + apply L_src3; auto.
    + psmall.
    + plarge.
    + pkgs. rewrite AF by auto. auto.
  - (* Bnei4 *) gcase; [|now apply ok_skip]. gsplit.
    pose proof (allFin_spec _ _ _ _ H0) as AF.
    assert (ST : started (tg s g)) by (unfold started; auto).
    pose proof (F5 ST). pose proof (F9 H).
    apply ok_with, with_tg_inv; [exact HI|exact Hg| | | | ].
    + apply L_nei4; auto.
    + psmall.
    + plarge.
    + pkgs. rewrite AF by auto. auto.
  - (* Bnei5 *) gcase; [|now apply ok_skip]. gsplit.
    pose proof (allFin_spec _ _ _ _ H0) as AF.
    assert (ST : started (tg s g)) by (unfold started; auto).
    pose proof (F5 ST). pose proof (F10 H).
    apply ok_with, with_tg_inv; [exact HI|exact Hg| | | | ].
    + apply L_nei5; auto.
    + psmall.
    + plarge.
    + pkgs. rewrite AF by auto. auto.
  - (* Bsend6 *) gcase; [|now apply ok_skip]. gsplit.
    apply ok_with, with_tg_inv; [exact HI|exact Hg| | | | ].
    + apply L_send6; auto.
    + psmall.
    + plarge.
    + pkgs.
  - (* Brecv7 *) gcase; [|now apply ok_skip]. gsplit.
    apply ok_with, with_tg_inv; [exact HI|exact Hg| | | | ].
    + apply L_recv7; auto.
    + psmall.
    + plarge.
    + pkgs.
  - (* Slocal1 *) gcase; [|now apply ok_skip]. gsplit.
    apply ok_rdy, set_rdy_inv; [exact HI|exact Hg|lia| | | |lia|reflexivity| | ].
    + apply L_slocal1; auto.
    + psmall.
    + plarge.
    + intros e He. e6 e He; reflexivity.
    + intros e He Ne. e6 e He; cbn; try reflexivity; lia.
  - (* Slocal0 *) gcase; [|now apply ok_skip]. gsplit.
    apply ok_rdy, set_rdy_inv; [exact HI|exact Hg|lia| | | |lia|reflexivity| | ].
    + apply L_slocal0; auto.
    + psmall.
    + plarge.
    + intros e He. e6 e He; reflexivity.
    + intros e He Ne. e6 e He; cbn; try reflexivity; lia.
  - (* Ssend *) gcase; [|now apply ok_skip]. gsplit.
    apply ok_with, with_tg_inv; [exact HI|exact Hg| | | | ].
    + apply L_ssend; auto.
    + psmall.
    + plarge.
    + pkgs.
  - (* Ssrc3 *) gcase; [|now apply ok_skip]. gsplit.
    apply ok_rdy, set_rdy_inv; [exact HI|exact Hg|lia| | | |lia|reflexivity| | ].
    + apply L_ssrc3; auto.
    + psmall.
    + plarge.
    + intros e He. e6 e He; reflexivity.
    + intros e He Ne. e6 e He; cbn; try reflexivity; try lia.
  - (* Ssrc2 *) gcase; [|now apply ok_skip]. gsplit.
    apply ok_rdy, set_rdy_inv; [exact HI|exact Hg|lia| | | |lia|reflexivity| | ].
    + apply L_ssrc2; auto.
    + psmall.
    + plarge.
    + intros e He. e6 e He; reflexivity.
    + intros e He Ne. e6 e He; cbn; try reflexivity; try lia.
  - (* Sneigh5 *) gcase; [|now apply ok_skip]. gsplit.
    assert (TP : tpI (tg s g) = nTs (tg s g) + 1 /\ tpS (tg s g) = nTs (tg s g) + 1).
    { clear - L H H1 H2 H3 H4. open_loc; cbn in *; lia. }
    apply ok_rdy, set_rdy_inv; [exact HI|exact Hg|lia| | | |lia|reflexivity| | ].
    + apply L_sneigh5; auto.
    + intros Hg' HP. destruct (avail_right _ _ _ H0 Hg').
      eapply pair_small; [exact HP | cbn; lia .. | ]. intros _. right. lia.
    + intros Hg' HP. destruct (avail_left _ _ _ H0 Hg').
      eapply pair_large; [exact HP | cbn; lia .. | ]. intros _. right. lia.
    + intros e He. e6 e He; reflexivity.
    + intros e He Ne. e6 e He; cbn; try reflexivity; try lia.
  - (* Sneigh4 *) gcase; [|now apply ok_skip]. gsplit.
    assert (TP : tpI (tg s g) = nTs (tg s g) + 1 /\ tpS (tg s g) = nTs (tg s g) + 1).
    { clear - L H H1 H2 H3. open_loc; cbn in *; lia. }
    apply ok_rdy, set_rdy_inv; [exact HI|exact Hg|lia| | | |lia|reflexivity| | ].
    + apply L_sneigh4; auto.
    + intros Hg' HP. destruct (avail_right _ _ _ H0 Hg').
      eapply pair_small; [exact HP | cbn; lia .. | ]. intros _. right. lia.
    + intros Hg' HP. destruct (avail_left _ _ _ H0 Hg').
      eapply pair_large; [exact HP | cbn; lia .. | ]. intros _. right. lia.
    + intros e He. e6 e He; reflexivity.
    + intros e He Ne. e6 e He; cbn; try reflexivity; try lia.
  - (* Srecv *) gcase; [|now apply ok_skip]. gsplit.
    assert (LT : lastTimeStep c g (tg s g) = (nTs (tg s g) =? N - 1)) by reflexivity.
    assert (ST : started (tg s g)) by (unfold started; auto).
    pose proof (F5 ST).
    gcase.
    + apply ok_with, with_tg_inv; [exact HI|exact Hg| | | | ].
      * apply L_srecv; auto. rewrite LT in G. destruct (Nat.eqb_spec (nTs (tg s g)) (N - 1)); [discriminate|auto].
      * psmall.
      * plarge.
      * pkgs.
    + apply ok_with, with_tg_inv; [exact HI|exact Hg| | | | ].
      * apply L_srecv_last; auto. rewrite LT in G. destruct (Nat.eqb_spec (nTs (tg s g)) (N - 1)); [auto|discriminate].
      * psmall.
      * plarge.
      * pkgs.
  - (* Sstep *) gcase; [|now apply ok_skip]. gsplit.
    assert (FI : finished c g (inc_nTs (tg s g)) = (S (nTs (tg s g)) =? N)) by reflexivity.
    assert (DU : duI (tg s g) = nTs (tg s g) + 1 /\ duS (tg s g) = nTs (tg s g) + 1 /\
                 tpI (tg s g) = nTs (tg s g) + 1 /\ tpS (tg s g) = nTs (tg s g) + 1 /\
                 cf (tg s g) 0 = 5 /\ cf (tg s g) 1 = 5 /\ cf (tg s g) 2 = 3 /\ cf (tg s g) 3 = 3).
    { clear - L H H1. open_loc; cbn in *; lia. }
    destruct DU as (D1 & D2 & D3 & D4 & D5 & D6 & D7 & D8).
    gcase.
    + apply ok_with, with_tg_inv; [exact HI|exact Hg| | | | ].
      * apply L_step; auto. rewrite FI in G. destruct (Nat.eqb_spec (S (nTs (tg s g))) N); [discriminate|auto].
      * intros Hg' HP. eapply pair_small_step with (t := tg s g); eauto; try reflexivity.
        -- eapply consumed_right; eauto.
        -- unfold started; cbn. lia.
      * intros Hg' HP. destruct (consumed_left _ _ _ H0 Hg').
        eapply pair_large_step with (T := tg s g); eauto; try reflexivity.
        -- apply I1. lia.
        -- unfold started; cbn. lia.
      * pkgs.
    + apply ok_with, with_tg_inv; [exact HI|exact Hg| | | | ].
      * apply L_step_last; auto. rewrite FI in G. destruct (Nat.eqb_spec (S (nTs (tg s g))) N); [auto|discriminate].
      * intros Hg' HP. eapply pair_small_step with (t := tg s g); eauto; try reflexivity.
        -- eapply consumed_right; eauto.
        -- unfold started; cbn. lia.
      * intros Hg' HP. destruct (consumed_left _ _ _ H0 Hg').
        eapply pair_large_step with (T := tg s g); eauto; try reflexivity.
        -- apply I1. lia.
        -- unfold started; cbn. lia.
      * pkgs.
  - (* Scount *) gcase; [|now apply ok_skip].
    eexists _, _. split; [reflexivity|]. split; [exact HI|]. auto.
Qed.
