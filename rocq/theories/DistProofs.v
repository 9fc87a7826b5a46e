(** Invariant of the multi-rank model (DistModel.v). *)
From Verif Require Import Util SchedModel SchedProofs SchedInv SchedReach DistModel.

(** every rank, on its own, is a run of the single-rank model *)
Lemma greach_rank G s : greach G s -> forall r, reach (rcfg G r) (rk s r).
Proof.
  induction 1 as [b0 sb0 sT rT rb|s l s' R IH E]; intros r.
  - constructor.
  - assert (RS : forall r0 l0, rank_step G s r0 l0 = GNext s' -> reach (rcfg G r) (rk s' r)).
    { intros r0 l0 E0. unfold rank_step in E0. destruct (rstep (rcfg G r0) (rk s r0) l0) as [s1 ev| |] eqn:E1; try discriminate.
      injection E0 as <-. cbn [rk]. destruct (Nat.eq_dec r r0) as [->|Ne].
      - rewrite fset_eq. econstructor; [apply IH|exact E1].
      - rewrite fset_ne by auto. apply IH. }
    destruct l as [r0|r0 l0|i|i]; cbn [gstep] in E.
    + destruct (r0 <? gR G); [|discriminate]. eapply RS; eauto.
    + destruct l0; try discriminate; (destruct (r0 <? gR G); [|discriminate]); eapply RS; eauto.
    + destruct (i <? length (gC G)); [|discriminate]. injection E as <-. apply IH.
    + destruct (i <? length (gC G)); [|discriminate]. destruct (testRecv (net s i)); [|discriminate].
      injection E as <-. apply IH.
Qed.

Lemma greach_inv G s : greach G s -> forall r, Inv (rcfg G r) (rk s r) /\ FinInv (rcfg G r) (rk s r).
Proof. intros R r. apply reach_inv, greach_rank, R. Qed.

(** rounds of sends begun and of receives posted by a group *)
Definition is1 (x : nat) : nat := if x =? 1 then 1 else 0.
Definition begun (t : tgs) : nat := nSe t + is1 (cf t 6).
Definition posted (t : tgs) : nat := nRe t + is1 (cf t 7).

Lemma is1_1 x : x = 1 -> is1 x = 1.
Proof. now intros ->. Qed.
Lemma is1_0 x : x <> 1 -> is1 x = 0.
Proof. unfold is1. destruct (Nat.eqb_spec x 1); auto. contradiction. Qed.

(** effect of a block on the communication state of its group *)
Lemma blk_send c mpi s g b s' ev : Inv c s -> g < nT c -> run_blk c mpi s g b = Next s' ev ->
  let t := tg s g in let t' := tg s' g in
  (ev = Some (EvSend (nSe t mod 2 =? 1) g) /\ cf t 6 = 0 /\ cf t' 6 = 1 /\ nSe t' = nSe t /\ cf t 1 = 2) \/
  ((forall lt g', ev <> Some (EvSend lt g')) /\
   (((cf t' 6 = 1 <-> cf t 6 = 1) /\ nSe t' = nSe t) \/
    (b = Bsend6 /\ mpi = true /\ cf t 6 = 1 /\ cf t' 6 = 2 /\ nSe t' = S (nSe t)))).
Proof.
  intros HI Hg E t t'. pose proof (proj1 HI g Hg) as L. subst t'.
  destruct b; unfold run_blk, set_rdy in E; fold t in E;
    repeat match type of E with (if ?x then _ else _) = _ => let G := fresh "G" in destruct x eqn:G end;
    try discriminate; injection E as <- <-; cbn [tg with_tg]; rewrite ?fset_eq;
    try (right; split; [discriminate|]; left; split; [reflexivity|reflexivity]).
  - (* Binit *) right. split; [discriminate|]. left. cbn. gsplit. unfold cfMax in *.
    fold t in L. split; [|reflexivity]. open_loc; cbn in *; lia.
  - (* Bsend6 *) right. split; [discriminate|]. right. gsplit. cbn. auto.
  - (* Slocal1 *) right. split; [discriminate|]. left. gsplit. cbn. split; [lia|reflexivity].
  - (* Ssend *) left. gsplit. cbn. auto.
Qed.

Lemma blk_recv c mpi s g b s' ev : Inv c s -> g < nT c -> run_blk c mpi s g b = Next s' ev ->
  let t := tg s g in let t' := tg s' g in
  (ev = Some (EvRecv (nRe t mod 2 =? 0) g) /\ (cf t 7 = 0 \/ cf t 7 = 9) /\ cf t' 7 = 1 /\ nRe t' = nRe t) \/
  ((forall lt g', ev <> Some (EvRecv lt g')) /\
   (((cf t' 7 = 1 <-> cf t 7 = 1) /\ nRe t' = nRe t) \/
    (b = Brecv7 /\ mpi = true /\ cf t 7 = 1 /\ cf t' 7 = 2 /\ nRe t' = S (nRe t)))).
Proof.
  intros HI Hg E t t'. pose proof (proj1 HI g Hg) as L. subst t'.
  destruct b; unfold run_blk, set_rdy in E; fold t in E;
    repeat match type of E with (if ?x then _ else _) = _ => let G := fresh "G" in destruct x eqn:G end;
    try discriminate; injection E as <- <-; cbn [tg with_tg]; rewrite ?fset_eq;
    try (right; split; [discriminate|]; left; split; [reflexivity|reflexivity]).
  - (* Binit *) left. cbn. gsplit. unfold cfMax in *.
    fold t in L. repeat split; auto. open_loc; cbn in *; lia.
  - (* Brecv7 *) right. split; [discriminate|]. right. gsplit. cbn. auto.
  - (* Sneigh5 *) right. split; [discriminate|]. left. gsplit. cbn. split; [lia|reflexivity].
  - (* Srecv *) left. gsplit. cbn. auto.
  - (* Srecv, last *) right. split; [discriminate|]. left. gsplit. cbn. split; [lia|reflexivity].
Qed.

Lemma blk_ev_group c mpi s g b s' ev : run_blk c mpi s g b = Next s' ev ->
  match ev with Some (EvSend _ g') | Some (EvRecv _ g') => g' = g | None => True end.
Proof.
  intros E.
  destruct b; unfold run_blk, set_rdy in E;
    repeat match type of E with (if ?x then _ else _) = _ => destruct x end;
    try discriminate; injection E as <- <-; auto.
Qed.

(** contents of the [k]-th message of a channel from group [g] to group [h] *)
Definition spec_msg (g h k : nat) : tag * tag :=
  if g =? h then (Some (k * 2 ^ g, (k + 1) * 2 ^ g), None)
  else if g <? h then (Some ((2 * k) * 2 ^ g, (2 * (k + 1)) * 2 ^ g), None)
  else (Some (k * 2 ^ g, k * 2 ^ g + 2 ^ (g - 1)), Some (k * 2 ^ g + 2 ^ (g - 1), (k + 1) * 2 ^ g)).

Definition SendOk (g h : nat) (t : tgs) (n : chst) : Prop :=
  sN n = (if g <? h then begun t / 2 else begun t) /\
  (sAct n = true -> sTst n = false /\ cf t 6 = 1 /\ (g < h -> nSe t mod 2 = 1)).

Definition RecvOk (g h : nat) (t : tgs) (n : chst) : Prop :=
  rN n = (if h <? g then (posted t + 1) / 2 else posted t) /\
  (rAct n = true -> rTst n = false /\ cf t 7 = 1 /\ (h < g -> nRe t mod 2 = 0)).

Definition MsgOk (g h nw : nat) (n : chst) : Prop :=
  (forall k w, k < sN n -> w < nw -> msg n k w = spec_msg g h k) /\
  rN n = rD n + (if rAct n then 1 else 0) /\ rD n <= sN n /\
  (1 <= rD n -> rAct n = false -> forall w, rbf n w = msg n (rD n - 1) w).

Definition ChInv (G : gcfg) (s : gst) (i : nat) : Prop :=
  let c := ch G i in
  SendOk (cG c) (cH c) (tg (rk s (cS c)) (cG c)) (net s i) /\
  RecvOk (cG c) (cH c) (tg (rk s (cR c)) (cH c)) (net s i) /\
  MsgOk (cG c) (cH c) (gW G (cS c)) (net s i).

(** well-formed communication structure: ranks and groups exist, groups of a channel differ by at most one *)
Definition wf (G : gcfg) : Prop :=
  forall i, i < length (gC G) ->
    cS (ch G i) < gR G /\ cR (ch G i) < gR G /\ cG (ch G i) < gT G /\ cH (ch G i) < gT G /\
    (cH (ch G i) = cG (ch G i) \/ cH (ch G i) = cG (ch G i) + 1 \/ cG (ch G i) = cH (ch G i) + 1).

Lemma half_S_odd n : n mod 2 = 1 -> (n + 1) / 2 = n / 2 + 1.
Proof.
  intros H. pose proof (Nat.div_mod n 2 ltac:(lia)). symmetry. apply (Nat.div_unique _ _ _ 0); lia.
Qed.
Lemma half_S_even n : n mod 2 = 0 -> (n + 1) / 2 = n / 2.
Proof.
  intros H. pose proof (Nat.div_mod n 2 ltac:(lia)). symmetry. apply (Nat.div_unique _ _ _ 1); lia.
Qed.
Lemma mod2_S n : (n + 1) mod 2 = 1 - n mod 2.
Proof.
  pose proof (Nat.div_mod n 2 ltac:(lia)). pose proof (Nat.mod_upper_bound n 2 ltac:(lia)).
  destruct (Nat.eq_dec (n mod 2) 0).
  - rewrite e. symmetry. apply (Nat.mod_unique _ _ (n / 2)); lia.
  - replace (n mod 2) with 1 by lia. symmetry. apply (Nat.mod_unique _ _ (n / 2 + 1)); lia.
Qed.

(** a block of rank [r], group [g], seen by a channel *)
Lemma blk_channel G s r g b s' ev i :
  Inv (rcfg G r) (rk s r) -> g < gT G -> r < gR G -> wf G ->
  i < length (gC G) ->
  ChInv G s i ->
  run_blk (rcfg G r) (mpi_answer G s r) (rk s r) g b = Next s' ev ->
  nth_error (prog (rcfg G r)) (pc (rk s r)) = Some (I g b) ->
  ChInv G (mkGst (fset (rk s) r s') (apply_ev G r (rk s r) ev (net s))) i.
Proof.
  intros HI Hg Hr WF Hi (HS & HR & HM) E Epc.
  destruct (WF i Hi) as (W1 & W2 & W3 & W4 & W5).
  pose proof (blk_send _ _ _ _ _ _ _ HI Hg E) as BS.
  pose proof (blk_recv _ _ _ _ _ _ _ HI Hg E) as BR.
  pose proof (blk_ev_group _ _ _ _ _ _ _ E) as BE.
  pose proof (blk_frame _ _ _ _ _ _ _ E) as FR.
  unfold ChInv. cbn [rk net]. set (c := ch G i) in *.
  set (n := net s i) in *. set (n' := apply_ev G r (rk s r) ev (net s) i).
  (* effect on the channel *)
  assert (EN : (n' = n /\ (forall lt, ev = Some (EvSend lt g) -> matchS c r lt g = false) /\
                          (forall lt, ev = Some (EvRecv lt g) -> matchR c r lt g = false)) \/
               (exists lt, ev = Some (EvSend lt g) /\ matchS c r lt g = true /\ n' = beginSend G (rk s r) i n) \/
               (exists lt, ev = Some (EvRecv lt g) /\ matchR c r lt g = true /\ n' = beginRecv n)).
  { subst n'. destruct ev as [[lt g'|lt g']|]; cbn [apply_ev]; [subst g'|subst g'|].
    - fold c. destruct (matchS c r lt g) eqn:M; [right; left; eauto|]. left. repeat split; auto; intros lt' X; congruence.
    - fold c. destruct (matchR c r lt g) eqn:M; [right; right; eauto|]. left. repeat split; auto; intros lt' X; congruence.
    - left. repeat split; auto; discriminate. }
  set (t := tg (rk s (cS c)) (cG c)) in *. set (u := tg (rk s (cR c)) (cH c)) in *.
  set (t' := tg (fset (rk s) r s' (cS c)) (cG c)). set (u' := tg (fset (rk s) r s' (cR c)) (cH c)).
  (* the sending group *)
  assert (TS : t' = t \/ (cS c = r /\ cG c = g)).
  { subst t' t. destruct (Nat.eq_dec (cS c) r) as [e|]; [|rewrite fset_ne by auto; auto].
    destruct (Nat.eq_dec (cG c) g); auto. left. rewrite e, fset_eq. apply FR. auto. }
  assert (US : u' = u \/ (cR c = r /\ cH c = g)).
  { subst u' u. destruct (Nat.eq_dec (cR c) r) as [e|]; [|rewrite fset_ne by auto; auto].
    destruct (Nat.eq_dec (cH c) g); auto. left. rewrite e, fset_eq. apply FR. auto. }
  (* components of the channel that change *)
  assert (SS : SendOk (cG c) (cH c) t' n').
  { destruct HS as [HS1 HS2].
    destruct EN as [(-> & M1 & M2) | [(lt & -> & M & ->) | (lt & -> & M & ->)]].
    - (* channel unchanged *)
      destruct TS as [-> | [Er Eg]]; [split; auto|].
      assert (T1 : t = tg (rk s r) g) by (subst t; congruence).
      assert (T2 : t' = tg s' g) by (subst t'; rewrite Er, fset_eq; congruence).
      rewrite <- T1, <- T2 in BS. unfold SendOk, begun in *.
      destruct BS as [(B1 & B2 & B3 & B4 & _) | (B0 & [(B1 & B2) | (-> & B2 & B3 & B4 & B5)])].
      + (* send begun, channel does not match: less than, even *)
        specialize (M1 _ B1). unfold matchS in M1. rewrite Er, Eg, !Nat.eqb_refl in M1. cbn [andb] in M1.
        rewrite Eg in *. destruct (Nat.ltb_spec g (cH c)); [|discriminate].
        assert (nSe t mod 2 = 0). { destruct (Nat.eqb_spec (nSe t mod 2) 1); [discriminate|].
          pose proof (Nat.mod_upper_bound (nSe t) 2 ltac:(lia)). lia. }
        rewrite B4, (is1_1 _ B3). rewrite (is1_0 (cf t 6)) in HS1 by lia. rewrite Nat.add_0_r in HS1.
        split; [rewrite half_S_even; auto|]. intros A. destruct (HS2 A) as (_ & K & _). lia.
      + rewrite B2. replace (is1 (cf t' 6)) with (is1 (cf t 6)).
        2: { unfold is1. destruct (Nat.eqb_spec (cf t 6) 1), (Nat.eqb_spec (cf t' 6) 1); tauto. }
        split; [exact HS1|]. intros A. destruct (HS2 A) as (K1 & K2 & K3). tauto.
      + (* sends finished *)
        rewrite (is1_1 _ B3) in HS1. rewrite (is1_0 (cf t' 6)), B5 by lia.
        split; [replace (S (nSe t) + 0) with (nSe t + 1) by lia; exact HS1|].
        intros A. destruct (HS2 A) as (K1 & K2 & K3). exfalso.
        unfold mpi_answer in B2. rewrite Epc in B2. unfold finSends in B2.
        rewrite forallb_forall in B2. specialize (B2 i ltac:(apply in_seq; lia)).
        fold c n in B2. rewrite K1, orb_false_r in B2. apply negb_true_iff in B2.
        unfold matchS in B2. rewrite Er, Eg, !Nat.eqb_refl in B2. cbn [andb] in B2.
        rewrite Eg in K3. destruct (Nat.ltb_spec g (cH c)); [|discriminate].
        rewrite <- T1, K3 in B2 by auto. discriminate.
    - (* send begun on this channel *)
      unfold matchS in M. apply andb_prop in M as [M0 M]. apply andb_prop in M as [M1 M2].
      apply Nat.eqb_eq in M0, M1.
      assert (T1 : t = tg (rk s r) g) by (subst t; congruence).
      assert (T2 : t' = tg s' g) by (subst t'; rewrite M0, fset_eq; congruence).
      rewrite <- T1, <- T2 in BS. unfold SendOk, begun in *. cbn [sN sAct sTst beginSend].
      destruct BS as [(B1 & B2 & B3 & B4 & _) | (B0 & _)]; [|exfalso; eapply B0; eauto].
      assert (lt = (nSe t mod 2 =? 1)) as -> by congruence. clear B1. rewrite B4, (is1_1 _ B3). rewrite (is1_0 (cf t 6)), Nat.add_0_r in HS1 by lia.
      destruct (Nat.ltb_spec (cG c) (cH c)) as [LT|GE].
      + apply Nat.eqb_eq in M2. rewrite half_S_odd by auto. split; [lia|]. auto.
      + split; [lia|]. intros _. repeat split; auto. lia.
    - (* receive posted *)
      assert (KS : SendOk (cG c) (cH c) t' n).
      2: { exact KS. }
      destruct TS as [-> | [Er Eg]]; [split; auto|].
      assert (T1 : t = tg (rk s r) g) by (subst t; congruence).
      assert (T2 : t' = tg s' g) by (subst t'; rewrite Er, fset_eq; congruence).
      rewrite <- T1, <- T2 in BS.
      destruct BS as [(B1 & _) | (B0 & [(B1 & B2) | (-> & B2 & B3 & B4 & B5)])]; [discriminate| |].
      + unfold SendOk, begun in *. rewrite B2. replace (is1 (cf t' 6)) with (is1 (cf t 6)).
        2: { unfold is1. destruct (Nat.eqb_spec (cf t 6) 1), (Nat.eqb_spec (cf t' 6) 1); tauto. }
        split; [exact HS1|]. intros A. destruct (HS2 A) as (K1 & K2 & K3). tauto.
      + exfalso. unfold run_blk in E. destruct (_ && _) in E; discriminate. }
  assert (RS : RecvOk (cG c) (cH c) u' n').
  { destruct HR as [HR1 HR2].
    destruct EN as [(-> & M1 & M2) | [(lt & -> & M & ->) | (lt & -> & M & ->)]].
    - destruct US as [-> | [Er Eg]]; [split; auto|].
      assert (T1 : u = tg (rk s r) g) by (subst u; congruence).
      assert (T2 : u' = tg s' g) by (subst u'; rewrite Er, fset_eq; congruence).
      rewrite <- T1, <- T2 in BR. unfold RecvOk, posted in *.
      destruct BR as [(B1 & B2 & B3 & B4) | (B0 & [(B1 & B2) | (-> & B2 & B3 & B4 & B5)])].
      + specialize (M2 _ B1). unfold matchR in M2. rewrite Er, Eg, !Nat.eqb_refl in M2. cbn [andb] in M2.
        rewrite Eg in *. destruct (Nat.ltb_spec g (cG c)); [|discriminate].
        assert (nRe u mod 2 = 1). { destruct (Nat.eqb_spec (nRe u mod 2) 0); [discriminate|].
          pose proof (Nat.mod_upper_bound (nRe u) 2 ltac:(lia)). lia. }
        rewrite B4, (is1_1 _ B3). rewrite (is1_0 (cf u 7)) in HR1 by lia. rewrite Nat.add_0_r in HR1.
        split; [|intros A; destruct (HR2 A) as (_ & K & _); lia].
        rewrite HR1. symmetry. apply half_S_even. rewrite mod2_S. lia.
      + rewrite B2. replace (is1 (cf u' 7)) with (is1 (cf u 7)).
        2: { unfold is1. destruct (Nat.eqb_spec (cf u 7) 1), (Nat.eqb_spec (cf u' 7) 1); tauto. }
        split; [exact HR1|]. intros A. destruct (HR2 A) as (K1 & K2 & K3). tauto.
      + rewrite (is1_1 _ B3) in HR1. rewrite (is1_0 (cf u' 7)), B5 by lia.
        split; [replace (S (nRe u) + 0) with (nRe u + 1) by lia; exact HR1|].
        intros A. destruct (HR2 A) as (K1 & K2 & K3). exfalso.
        unfold mpi_answer in B2. rewrite Epc in B2. unfold finRecvs in B2.
        rewrite forallb_forall in B2. specialize (B2 i ltac:(apply in_seq; lia)).
        fold c n in B2. rewrite K1, orb_false_r in B2. apply negb_true_iff in B2.
        unfold matchR in B2. rewrite Er, Eg, !Nat.eqb_refl in B2. cbn [andb] in B2.
        rewrite Eg in K3. destruct (Nat.ltb_spec g (cG c)); [|discriminate].
        rewrite <- T1, K3 in B2 by auto. discriminate.
    - assert (KR : RecvOk (cG c) (cH c) u' n).
      2: { exact KR. }
      destruct US as [-> | [Er Eg]]; [split; auto|].
      assert (T1 : u = tg (rk s r) g) by (subst u; congruence).
      assert (T2 : u' = tg s' g) by (subst u'; rewrite Er, fset_eq; congruence).
      rewrite <- T1, <- T2 in BR.
      destruct BR as [(B1 & _) | (B0 & [(B1 & B2) | (-> & B2 & B3 & B4 & B5)])]; [discriminate| |].
      + unfold RecvOk, posted in *. rewrite B2. replace (is1 (cf u' 7)) with (is1 (cf u 7)).
        2: { unfold is1. destruct (Nat.eqb_spec (cf u 7) 1), (Nat.eqb_spec (cf u' 7) 1); tauto. }
        split; [exact HR1|]. intros A. destruct (HR2 A) as (K1 & K2 & K3). tauto.
      + exfalso. unfold run_blk in E. destruct (_ && _) in E; discriminate.
    - unfold matchR in M. apply andb_prop in M as [M0 M]. apply andb_prop in M as [M1 M2].
      apply Nat.eqb_eq in M0, M1.
      assert (T1 : u = tg (rk s r) g) by (subst u; congruence).
      assert (T2 : u' = tg s' g) by (subst u'; rewrite M0, fset_eq; congruence).
      rewrite <- T1, <- T2 in BR. unfold RecvOk, posted in *. cbn [rN rAct rTst beginRecv].
      destruct BR as [(B1 & B2 & B3 & B4) | (B0 & _)]; [|exfalso; eapply B0; eauto].
      assert (lt = (nRe u mod 2 =? 0)) as -> by congruence. clear B1. rewrite B4, (is1_1 _ B3). rewrite (is1_0 (cf u 7)), Nat.add_0_r in HR1 by lia.
      destruct (Nat.ltb_spec (cH c) (cG c)) as [LT|GE].
      + apply Nat.eqb_eq in M2. split; [|auto].
        rewrite half_S_odd by (rewrite mod2_S; lia). lia.
      + split; [lia|]. intros _. repeat split; auto. lia. }
  split; [exact SS|]. split; [exact RS|].
  destruct HM as (HM1 & HM2 & HM3 & HM4).
  destruct EN as [(-> & _) | [(lt & -> & M & ->) | (lt & -> & M & ->)]].
  - repeat apply conj; auto.
  - (* send begun: the contents *)
    unfold matchS in M. apply andb_prop in M as [M0 M]. apply andb_prop in M as [M1 M2].
    apply Nat.eqb_eq in M0, M1.
    assert (T1 : t = tg (rk s r) g) by (subst t; congruence).
    rewrite <- T1 in BS.
    destruct BS as [(B1 & B2 & B3 & B4 & B5) | (B0 & _)]; [|exfalso; eapply B0; eauto].
    assert (lt = (nSe t mod 2 =? 1)) as -> by congruence. clear B1.
    destruct HS as [HS1 HS2]. unfold begun in HS1. rewrite (is1_0 (cf t 6)), Nat.add_0_r in HS1 by lia.
    unfold MsgOk. cbn [sN rN rD rAct rbf msg beginSend].
    split; [|split; [exact HM2|split; [lia|]]].
    2: { intros H1 H2 w. rewrite (HM4 H1 H2 w). rewrite fset_ne by lia. reflexivity. }
    intros k w Hk Hw. destruct (Nat.eq_dec k (sN n)) as [->|Ne].
    2: { rewrite fset_ne by auto. apply HM1; auto. lia. }
    rewrite fset_eq. fold c.
    pose proof HI as (I1 & I2 & I3 & I4 & I5 & I6).
    rewrite M0 in Hw.
    pose proof (I6 g (cH c) w Hg Hw) as SB. rewrite M1.
    pose proof (I3 g 1 w Hg ltac:(lia) Hw) as PK. unfold PkgOk in PK. rewrite <- T1, B5 in PK. cbn [Nat.eqb] in PK.
    destruct PK as [PX _]. cbn [cnt] in PX.
    assert (LN : tpS t = S (nTs t) /\ nSe t = nTs t).
    { pose proof (I1 g Hg) as L. rewrite <- T1 in L. clear - L B5 B2. open_loc. }
    destruct LN as [L1 L2]. rewrite L1 in PX. rewrite PX in SB. unfold SbfOk in SB. unfold spec_msg.
    rewrite M1 in *. rewrite HS1, L2.
    destruct (Nat.eqb_spec g (cH c)) as [->|Ng].
    + rewrite SB. replace (cH c <? cH c) with false by lia. reflexivity.
    + destruct (Nat.ltb_spec g (cH c)).
      * apply Nat.eqb_eq in M2. rewrite L2 in M2.
        rewrite SB.
        -- replace (S (nTs t)) with (nTs t + 1) by lia. rewrite half_S_odd by auto.
           replace (nTs t / 2 + 1 - 1) with (nTs t / 2) by lia. reflexivity.
        -- destruct (nTs t); [discriminate|lia].
      * exact SB.
  - (* receive posted *)
    unfold MsgOk. cbn [sN rN rD rAct rbf msg beginRecv].
    assert (RA : rAct n = false).
    { destruct (rAct n) eqn:A; auto. destruct HR as [_ HR2]. destruct (HR2 A) as (_ & K & _).
      unfold matchR in M. apply andb_prop in M as [M0 M]. apply andb_prop in M as [M1 M2].
      apply Nat.eqb_eq in M0, M1.
      assert (T1 : u = tg (rk s r) g) by (subst u; congruence).
      rewrite <- T1 in BR. destruct BR as [(B1 & B2 & _) | (B0 & _)]; [|exfalso; eapply B0; eauto]. lia. }
    rewrite RA in HM2. split; [exact HM1|]. split; [lia|]. split; [exact HM3|]. discriminate.
Qed.

Lemma work_frame c s l s' ev : rstep c s l = Next s' ev -> (forall mpi, l <> LSched mpi) -> tg s' = tg s /\ ev = None.
Proof.
  intros E N. destruct l as [mpi|w g e|w|w]; cbn [rstep] in E.
  - now destruct (N mpi).
  - unfold get_step in E. destruct (negb _); [discriminate|]. destruct (cur s w); try discriminate.
    destruct (status_eqb _ _); [|discriminate]. injection E as <- <-. auto.
  - unfold start_step in E. destruct (cur s w); try discriminate.
    destruct (negb _); [discriminate|]. injection E as <- <-. auto.
  - unfold done_step in E. destruct (cur s w); try discriminate.
    destruct (negb _); [discriminate|]. injection E as <- <-. auto.
Qed.

Lemma ChInv_frame G s s' i : (forall r g, tg (rk s' r) g = tg (rk s r) g) -> net s' i = net s i ->
  ChInv G s i -> ChInv G s' i.
Proof. intros T N. unfold ChInv. now rewrite !T, N. Qed.

Lemma rank_ch G s r l s' i : wf G -> greach G s -> r < gR G -> i < length (gC G) ->
  (forall mpi, l = LSched mpi -> mpi = mpi_answer G s r) ->
  ChInv G s i -> rank_step G s r l = GNext s' -> ChInv G s' i.
Proof.
  intros WF R Hr Hi HL C E. unfold rank_step in E.
  destruct (rstep (rcfg G r) (rk s r) l) as [s1 ev| |] eqn:E1; try discriminate. injection E as <-.
  destruct l as [mpi|w g e|w|w].
  2-4: (destruct (work_frame _ _ _ _ _ E1 ltac:(discriminate)) as [T ->];
        revert C; apply ChInv_frame; [|reflexivity]; intros r0 g0; cbn [rk];
        destruct (Nat.eq_dec r0 r) as [->|]; [rewrite fset_eq|rewrite fset_ne by auto]; congruence).
  rewrite (HL mpi eq_refl) in E1. clear HL mpi.
  cbn [rstep] in E1. unfold sched_step in E1. destruct (fin (rk s r)); [discriminate|].
  destruct (nth_error (prog (rcfg G r)) (pc (rk s r))) as [[g b| |]|] eqn:Epc; try discriminate.
  - destruct (run_blk _ _ _ g b) as [s2 ev2| |] eqn:E2; try discriminate.
    pose proof (nth_prog_group _ _ _ _ Epc) as Hg.
    injection E1 as <- <-.
    pose proof (blk_channel G s r g b s2 ev2 i (proj1 (greach_inv G s R r)) Hg Hr WF Hi C E2 Epc) as K.
    revert K. apply ChInv_frame; [|reflexivity]. intros r0 g0. cbn [rk].
    destruct (Nat.eq_dec r0 r) as [->|]; [rewrite !fset_eq|rewrite !fset_ne by auto]; reflexivity.
  - injection E1 as <- <-. revert C. apply ChInv_frame; [|reflexivity]. intros r0 g0. cbn [rk].
    destruct (Nat.eq_dec r0 r) as [->|]; [rewrite !fset_eq|rewrite !fset_ne by auto]; reflexivity.
  - injection E1 as <- <-. revert C. apply ChInv_frame; [|reflexivity]. intros r0 g0. cbn [rk].
    destruct (Nat.eq_dec r0 r) as [->|]; [rewrite !fset_eq|rewrite !fset_ne by auto]; reflexivity.
Qed.

Theorem greach_ch G s : wf G -> greach G s -> forall i, i < length (gC G) -> ChInv G s i.
Proof.
  intros WF. induction 1 as [b0 sb0 sT rT rb|s l s' R IH E]; intros i Hi.
  - unfold ChInv, SendOk, RecvOk, MsgOk, begun, posted.
    set (b1 := cG (ch G i) <? cH (ch G i)). set (b2 := cH (ch G i) <? cG (ch G i)). cbn.
    repeat apply conj; try discriminate; try lia; match goal with |- _ = (if ?b then _ else _) => destruct b; reflexivity end.
  - specialize (IH i Hi).
    destruct l as [r0|r0 l0|j|j]; cbn [gstep] in E.
    + destruct (Nat.ltb_spec r0 (gR G)) as [Hr|]; [|discriminate]. eapply rank_ch; eauto.
      intros mpi X. now injection X.
    + destruct l0; try discriminate; (destruct (Nat.ltb_spec r0 (gR G)) as [Hr|]; [|discriminate]);
        eapply rank_ch; eauto; discriminate.
    + destruct (j <? length (gC G)); [|discriminate]. injection E as <-.
      destruct (Nat.eq_dec i j) as [<-|Ne]; [|revert IH; apply ChInv_frame; [reflexivity|cbn; rewrite fset_ne by auto; reflexivity]].
      unfold ChInv in *. cbn [rk net]. rewrite fset_eq. destruct IH as ((A1 & A2) & A3 & A4).
      split; [|split; [exact A3|exact A4]]. split; [exact A1|]. discriminate.
    + destruct (j <? length (gC G)); [|discriminate]. destruct (testRecv (net s j)) as [n|] eqn:T; [|discriminate]. injection E as <-.
      destruct (Nat.eq_dec i j) as [<-|Ne]; [|revert IH; apply ChInv_frame; [reflexivity|cbn; rewrite fset_ne by auto; reflexivity]].
      unfold ChInv in *. cbn [rk net]. rewrite fset_eq. destruct IH as (A3 & (A1 & A2) & (B1 & B2 & B3 & B4)).
      unfold testRecv in T. destruct (rAct (net s i)) eqn:A.
      * destruct (Nat.ltb_spec (rD (net s i)) (sN (net s i))); [|discriminate]. injection T as <-.
        split; [exact A3|]. split; [split; [exact A1|discriminate]|].
        unfold MsgOk. cbn [sN rN rD rAct msg rbf]. split; [exact B1|]. split; [lia|]. split; [lia|].
        intros _ _ w. replace (S (rD (net s i)) - 1) with (rD (net s i)) by lia. reflexivity.
      * injection T as <-.
        split; [exact A3|]. split; [split; [exact A1|discriminate]|].
        unfold MsgOk. cbn [sN rN rD rAct msg rbf]. split; [exact B1|]. split; [lia|]. split; [lia|]. auto.
Qed.
