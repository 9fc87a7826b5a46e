(** No deadlock: in the multi-rank model, if nothing can happen, all groups of all ranks are done. *)
From Verif Require Import Util SchedModel SchedProofs SchedInv SchedReach DistModel DistProofs.

(** the guard of a block which changes the state (all but the count of finished groups) *)
Definition guard_ (c : cfg) (mpi : bool) (s : rst) (g : nat) (b : blk) : bool :=
  let t := tg s g in
  match b with
  | Binit => cfe t 0 cfMax
  | Bloc0 => cfe t 0 1 && allFin c s g 0
  | Bloc1 => cfe t 1 1 && allFin c s g 1
  | Bsrc2 => cfe t 2 1 && allFin c s g 2
  | Bsrc3 => cfe t 3 1 && allFin c s g 3
  | Bnei4 => cfe t 4 1 && allFin c s g 4
  | Bnei5 => cfe t 5 1 && allFin c s g 5
  | Bsend6 => cfe t 6 1 && mpi
  | Brecv7 => cfe t 7 1 && mpi
  | Slocal1 => cfe t 1 0 && cfe t 6 2
  | Slocal0 => cfe t 0 0
  | Ssend => cfe t 1 2 && cfe t 6 0
  | Ssrc3 => cfe t 1 3 && cfe t 3 0
  | Ssrc2 => cfe t 0 2 && cfe t 2 0
  | Sneigh5 => cfe t 7 2 && (4 <=? cf t 0) && (4 <=? cf t 1) && cfe t 3 2 && cfe t 5 0 && predAvailable c s g
  | Sneigh4 => (4 <=? cf t 0) && (4 <=? cf t 1) && cfe t 2 2 && cfe t 4 0 && predAvailable c s g
  | Srecv => cfe t 5 2 && cfe t 7 0
  | Sstep => cfe t 4 2 && cfe t 5 3 && predConsumed c s g
  | Scount => false
  end.

Definition blk_mpi (G : gcfg) (s : gst) (r g : nat) (b : blk) : bool :=
  match b with
  | Bsend6 => finSends G s r (nSe (tg (rk s r) g) mod 2 =? 1) g
  | Brecv7 => finRecvs G s r (nRe (tg (rk s r) g) mod 2 =? 0) g
  | _ => true
  end.

Lemma mpi_answer_blk G s r g b : nth_error (prog (rcfg G r)) (pc (rk s r)) = Some (I g b) ->
  mpi_answer G s r = blk_mpi G s r g b.
Proof. intros E. unfold mpi_answer. rewrite E. destruct b; reflexivity. Qed.

(** nothing can happen, except for idle passes of the schedulers *)
Record quiet (G : gcfg) (s : gst) : Prop := mkQuiet {
  q_work : forall r w, r < gR G -> w < gW G r ->
     cur (rk s r) w = Idle /\ forall g e, g < gT G -> e < 6 -> stat (rk s r) g e w <> RDY;
  q_send : forall i, i < length (gC G) -> sAct (net s i) = true -> rN (net s i) < sN (net s i);
  q_recv : forall i, i < length (gC G) -> rAct (net s i) = true -> sN (net s i) <= rD (net s i);
  q_blk : forall r g b, r < gR G -> g < gT G -> guard_ (rcfg G r) (blk_mpi G s r g b) (rk s r) g b = false
}.

(** the states in which a group can be stuck *)
Definition stuckI (t : tgs) : Prop :=
  (cf t 0 = 4 /\ cf t 2 = 2 /\ cf t 4 = 0 /\ tpI t = nTs t + 1 /\ duI t = nTs t) \/
  (cf t 0 = 5 /\ cf t 4 = 2 /\ tpI t = nTs t + 1 /\ duI t = nTs t + 1).
Definition stuckS (t : tgs) : Prop :=
  (cf t 1 = 0 /\ cf t 6 = 1 /\ tpS t = nTs t /\ duS t = nTs t /\ begun t = nTs t) \/
  (cf t 1 = 4 /\ cf t 3 = 2 /\ cf t 5 = 0 /\ tpS t = nTs t + 1 /\ duS t = nTs t /\ begun t = nTs t + 1 /\
   ((cf t 7 = 1 /\ nRe t = nTs t) \/ cf t 7 = 2)) \/
  (cf t 1 = 5 /\ cf t 5 = 3 /\ tpS t = nTs t + 1 /\ duS t = nTs t + 1 /\ begun t = nTs t + 1).

Definition qstate (N : nat) (t : tgs) : Prop :=
  (nTs t = N /\ tpI t = N /\ tpS t = N /\ duI t = N /\ duS t = N /\ begun t = N /\ posted t = N /\
   cf t 4 = 4 /\ cf t 7 = 3 /\ (cf t 6 = 1 \/ cf t 6 = 2)) \/
  (nTs t < N /\ stuckI t /\ stuckS t /\ nTs t + 1 <= posted t).

Lemma quiet_group G s r g : Inv (rcfg G r) (rk s r) -> quiet G s -> r < gR G -> g < gT G ->
  qstate (nReq (rcfg G r) g) (tg (rk s r) g).
Proof.
  intros HI Q Hr Hg.
  assert (AF : forall e, e < 6 -> cf (tg (rk s r) g) e = 1 -> allFin (rcfg G r) (rk s r) g e = true).
  { intros e He C1. apply allFin_complete. intros w Hw.
    destruct HI as (I1 & I2 & I3 & I4 & I5 & I6). specialize (I3 g e w Hg He Hw). unfold PkgOk in I3.
    rewrite C1 in I3. cbn [Nat.eqb] in I3. destruct (q_work _ _ Q r w Hr Hw) as [W1 W2].
    destruct (stat (rk s r) g e w) eqn:ES; auto.
    - now destruct (W2 g e Hg He).
    - destruct I4 as (_ & _ & J3). rewrite (J3 _ _ _ ES) in W1. discriminate.
    - contradiction. }
  pose proof (proj1 HI g Hg) as L. change (nT (rcfg G r)) with (gT G) in *.
  pose proof (fun b => q_blk _ _ Q r g b Hr Hg) as B.
  pose proof (B Binit) as B0. pose proof (B Bloc0) as B1. pose proof (B Bloc1) as B2. pose proof (B Bsrc2) as B3.
  pose proof (B Bsrc3) as B4. pose proof (B Bnei4) as B5. pose proof (B Bnei5) as B6.
  pose proof (B Slocal1) as B7. pose proof (B Slocal0) as B8. pose proof (B Ssend) as B9. pose proof (B Ssrc3) as B10.
  pose proof (B Ssrc2) as B11. pose proof (B Srecv) as B12. clear B.
  cbn [guard_] in *. set (t := tg (rk s r) g) in *. set (N := nReq (rcfg G r) g) in *.
  pose proof (nReq_pos (rcfg G r) g) as NP. fold N in NP.
  unfold cfe, cfMax in *.
  assert (C0 : cf t 0 <> 9 /\ cf t 0 <> 0 /\ (forall e, e < 6 -> cf t e <> 1) /\
               ~ (cf t 1 = 0 /\ cf t 6 = 2) /\ ~ (cf t 1 = 2 /\ cf t 6 = 0) /\ ~ (cf t 1 = 3 /\ cf t 3 = 0) /\
               ~ (cf t 0 = 2 /\ cf t 2 = 0) /\ ~ (cf t 5 = 2 /\ cf t 7 = 0)).
  { apply Nat.eqb_neq in B0, B8.
    assert (AN : forall a b, (a =? b) = true -> a = b) by (intros; now apply Nat.eqb_eq).
    repeat apply conj; auto.
    - intros e He C. pose proof (AF e He C) as A.
      e6 e He; rewrite A, C in *; discriminate.
    - intros [X Y]. rewrite X, Y in B7. discriminate.
    - intros [X Y]. rewrite X, Y in B9. discriminate.
    - intros [X Y]. rewrite X, Y in B10. discriminate.
    - intros [X Y]. rewrite X, Y in B11. discriminate.
    - intros [X Y]. rewrite X, Y in B12. discriminate. }
  clear B0 B1 B2 B3 B4 B5 B6 B7 B8 B9 B10 B11 B12 AF.
  destruct C0 as (C0 & C1 & C2 & C3 & C4 & C5 & C6 & C7).
  pose proof (C2 0 ltac:(lia)) as D0. pose proof (C2 1 ltac:(lia)) as D1. pose proof (C2 2 ltac:(lia)) as D2.
  pose proof (C2 3 ltac:(lia)) as D3. pose proof (C2 4 ltac:(lia)) as D4. pose proof (C2 5 ltac:(lia)) as D5. clear C2.
  unfold qstate, stuckI, stuckS, begun, posted.
  assert (V6 : (cf t 6 = 1 /\ is1 (cf t 6) = 1) \/ (cf t 6 <> 1 /\ is1 (cf t 6) = 0)).
  { unfold is1. destruct (Nat.eqb_spec (cf t 6) 1); auto. }
  assert (V7 : (cf t 7 = 1 /\ is1 (cf t 7) = 1) \/ (cf t 7 <> 1 /\ is1 (cf t 7) = 0)).
  { unfold is1. destruct (Nat.eqb_spec (cf t 7) 1); auto. }
  clear HI Q. set (x6 := is1 (cf t 6)) in *. set (x7 := is1 (cf t 7)) in *. clearbody x6 x7 t N.
  destruct L as (p & q & (A1 & A2 & A3 & A4 & A5 & A6) & (E1 & E2 & E3 & E4 & E5 & E6 & E7 & E8) & K1 & K2).
  assert (P : p = I4 \/ p = I6 \/ p = I7).
  { clear - A1 A2 A3 C0 C1 C6 D0 D2 D4. rewrite A1, A2 in *. rewrite A3 in *.
    destruct p; cbn in *; auto; exfalso; auto. }
  assert (Qq : (q = S0 /\ cf t 6 = 1) \/ q = S5 \/ q = S8 \/ q = S9).
  { clear - E1 E2 E3 E7 E8 C3 C4 C5 C7 D1 D3 D5 K1 P. rewrite E1, E2, E3 in *.
    destruct q; cbn [sc1 sc3 sc5 sendOk recvOk] in *.
    - exfalso. destruct P as [-> | [-> | ->]]; exact K1.
    - left. split; [reflexivity|]. destruct E7 as [[E7 _]|[E7 _]]; [|exact E7]. exfalso. apply C3. auto.
    - exfalso. now apply D1.
    - exfalso. apply C4. split; [reflexivity|apply E7].
    - exfalso. apply C5. auto.
    - exfalso. now apply D3.
    - auto.
    - exfalso. now apply D5.
    - exfalso. apply C7. split; [reflexivity|apply E8].
    - auto.
    - auto. }
  clear C0 C1 C3 C4 C5 C6 C7 D0 D1 D2 D3 D4 D5.
  assert (X6 : x6 = if cf t 6 =? 1 then 1 else 0).
  { destruct V6 as [[-> ->]|[V ->]]; [reflexivity|]. now apply Nat.eqb_neq in V as ->. }
  assert (X7 : x7 = if cf t 7 =? 1 then 1 else 0).
  { destruct V7 as [[-> ->]|[V ->]]; [reflexivity|]. now apply Nat.eqb_neq in V as ->. }
  clear V6 V7. rewrite X6, X7. clear x6 x7 X6 X7.
  destruct P as [-> | [-> | ->]]; destruct Qq as [(-> & X6) | [-> | [-> | ->]]];
    cbn [ic0 ic2 ic4 itp isr idu sc1 sc3 sc5 stp ssr sdu sendOk recvOk couple] in *; try contradiction; rewrite ?Nat.add_0_r in *;
    try (right; split; [exact K1|]; split; [first [left; repeat apply conj; assumption
      | right; repeat apply conj; assumption]|]).
  - split; [left|]; destruct E7 as [[E7 E7']|[E7 E7']], E8 as [[E8 E8']|[E8 E8']]; rewrite ?E7, ?E8; cbn [Nat.eqb]; lia.
  - split; [right; left|]; destruct E7 as [[E7 E7']|[E7 E7']], E8 as [[E8 E8']|[E8 E8']]; rewrite ?E7, ?E8; cbn [Nat.eqb]; lia.
  - split; [right; right|]; destruct E7 as [[E7 E7']|[E7 E7']], E8 as [(E8'' & [[E8 E8']|[E8 E8']])|(E8'' & E8 & E8')]; rewrite ?E7, ?E8; cbn [Nat.eqb]; lia.
  - split; [right; left|]; destruct E7 as [[E7 E7']|[E7 E7']], E8 as [[E8 E8']|[E8 E8']]; rewrite ?E7, ?E8; cbn [Nat.eqb]; lia.
  - split; [right; right|]; destruct E7 as [[E7 E7']|[E7 E7']], E8 as [(E8'' & [[E8 E8']|[E8 E8']])|(E8'' & E8 & E8')]; rewrite ?E7, ?E8; cbn [Nat.eqb]; lia.
  - left. destruct E7 as [[E7 E7']|[E7 E7']], E8 as [E8 E8']; rewrite ?E7, ?E8; cbn [Nat.eqb]; lia.
Qed.

(** once used, a request is either pending or has tested positive *)
Definition TstOk (n : chst) : Prop :=
  (1 <= sN n -> sTst n = negb (sAct n)) /\ (1 <= rN n -> rTst n = negb (rAct n)).

Lemma greach_tst G s : greach G s -> forall i, TstOk (net s i).
Proof.
  induction 1 as [b0 sb0 sT rT rb|s l s' R IH E]; intros i.
  - unfold TstOk. cbn. lia.
  - assert (RS : forall r0 l0, rank_step G s r0 l0 = GNext s' -> TstOk (net s' i)).
    { intros r0 l0 E0. unfold rank_step in E0. destruct (rstep (rcfg G r0) (rk s r0) l0) as [s1 ev| |]; try discriminate.
      injection E0 as <-. cbn [net]. unfold apply_ev. specialize (IH i).
      destruct ev as [[lt g|lt g]|]; auto.
      - destruct (matchS _ _ _ _); auto. destruct IH as [H1 H2]. split; cbn; auto.
      - destruct (matchR _ _ _ _); auto. destruct IH as [H1 H2]. split; cbn; auto. }
    destruct l as [r0|r0 l0|j|j]; cbn [gstep] in E.
    + destruct (r0 <? gR G); [|discriminate]. eapply RS; eauto.
    + destruct l0; try discriminate; (destruct (r0 <? gR G); [|discriminate]); eapply RS; eauto.
    + destruct (j <? length (gC G)); [|discriminate]. injection E as <-. cbn [net].
      destruct (Nat.eq_dec i j) as [<-|Ne]; [rewrite fset_eq|rewrite fset_ne by auto; auto].
      destruct (IH i) as [H1 H2]. split; cbn; auto.
    + destruct (j <? length (gC G)); [|discriminate]. destruct (testRecv (net s j)) as [n|] eqn:T; [|discriminate].
      injection E as <-. cbn [net].
      destruct (Nat.eq_dec i j) as [<-|Ne]; [rewrite fset_eq|rewrite fset_ne by auto; auto].
      destruct (IH i) as [H1 H2]. unfold testRecv in T. destruct (rAct (net s i)); [destruct (_ <? _); [|discriminate]|];
        injection T as <-; split; cbn; auto.
Qed.

Section Quiet.
Variables (G : gcfg) (s : gst).
Hypothesis WF : wf G.
Hypothesis R : greach G s.
Hypothesis Q : quiet G s.

Let N g := nReq (rcfg G 0) g.
Let t r g := tg (rk s r) g.

Lemma NN r g : nReq (rcfg G r) g = N g.
Proof. reflexivity. Qed.

Lemma N_half g : g + 1 < gT G -> N g = 2 * N (g + 1).
Proof. intros H. unfold N. now rewrite (nReq_half (rcfg G 0)). Qed.

Lemma qst r g : r < gR G -> g < gT G -> qstate (N g) (t r g).
Proof. intros Hr Hg. rewrite <- (NN r). apply quiet_group; auto. apply greach_inv. exact R. Qed.

Lemma stuck_send r g : r < gR G -> g < gT G -> cf (t r g) 6 = 1 ->
  exists i, i < length (gC G) /\ cS (ch G i) = r /\ cG (ch G i) = g /\
            rN (net s i) < (if g <? cH (ch G i) then begun (t r g) / 2 else begun (t r g)).
Proof.
  intros Hr Hg C. pose proof (q_blk _ _ Q r g Bsend6 Hr Hg) as B. cbn [guard_ blk_mpi] in B.
  fold (t r g) in B. rewrite (proj2 (cfe_iff _ _ _) C) in B. cbn [andb] in B.
  unfold finSends in B.
  assert (EX : exists i, In i (seq 0 (length (gC G))) /\
     (negb (matchS (ch G i) r (nSe (t r g) mod 2 =? 1) g) || sTst (net s i)) = false).
  { clear - B. induction (seq 0 (length (gC G))) as [|x l IH]; [discriminate|]. cbn in B.
    apply andb_false_iff in B as [B|B]; [exists x; cbn; auto|].
    destruct (IH B) as (i & H1 & H2). exists i. cbn. auto. }
  destruct EX as (i & Hi & E). apply in_seq in Hi. apply orb_false_elim in E as [E1 E2].
  apply negb_false_iff in E1. unfold matchS in E1. apply andb_prop in E1 as [M0 M]. apply andb_prop in M as [M1 M2].
  apply Nat.eqb_eq in M0, M1. exists i. split; [lia|]. split; [auto|]. split; [auto|].
  pose proof (greach_ch G s WF R i ltac:(lia)) as ((HS1 & HS2) & _). rewrite M0, M1 in *. fold (t r g) in *.
  rewrite <- HS1.
  assert (SA : sAct (net s i) = true).
  { destruct (greach_tst G s R i) as [H _]. rewrite H in E2; [now apply negb_false_iff in E2|].
    rewrite HS1. unfold begun. rewrite (is1_1 _ C). destruct (g <? cH (ch G i)) eqn:L; [|lia].
    apply Nat.eqb_eq in M2. rewrite half_S_odd by auto. lia. }
  apply (q_send _ _ Q i ltac:(lia) SA).
Qed.

Lemma stuck_recv r g : r < gR G -> g < gT G -> cf (t r g) 7 = 1 ->
  exists i, i < length (gC G) /\ cR (ch G i) = r /\ cH (ch G i) = g /\
            (g < cG (ch G i) -> nRe (t r g) mod 2 = 0) /\
            sN (net s i) < (if g <? cG (ch G i) then (posted (t r g) + 1) / 2 else posted (t r g)).
Proof.
  intros Hr Hg C. pose proof (q_blk _ _ Q r g Brecv7 Hr Hg) as B. cbn [guard_ blk_mpi] in B.
  fold (t r g) in B. rewrite (proj2 (cfe_iff _ _ _) C) in B. cbn [andb] in B.
  unfold finRecvs in B.
  assert (EX : exists i, In i (seq 0 (length (gC G))) /\
     (negb (matchR (ch G i) r (nRe (t r g) mod 2 =? 0) g) || rTst (net s i)) = false).
  { clear - B. induction (seq 0 (length (gC G))) as [|x l IH]; [discriminate|]. cbn in B.
    apply andb_false_iff in B as [B|B]; [exists x; cbn; auto|].
    destruct (IH B) as (i & H1 & H2). exists i. cbn. auto. }
  destruct EX as (i & Hi & E). apply in_seq in Hi. apply orb_false_elim in E as [E1 E2].
  apply negb_false_iff in E1. unfold matchR in E1. apply andb_prop in E1 as [M0 M]. apply andb_prop in M as [M1 M2].
  apply Nat.eqb_eq in M0, M1. exists i. split; [lia|]. split; [auto|]. split; [auto|].
  pose proof (greach_ch G s WF R i ltac:(lia)) as (_ & (HR1 & HR2) & (_ & HM & _)). rewrite M0, M1 in *. fold (t r g) in *.
  rewrite <- HR1.
  assert (SA : rAct (net s i) = true).
  { destruct (greach_tst G s R i) as [_ H]. rewrite H in E2; [now apply negb_false_iff in E2|].
    rewrite HR1. unfold posted. rewrite (is1_1 _ C). destruct (g <? cG (ch G i)) eqn:L; [|lia].
    apply (Nat.div_le_lower_bound _ 2); lia. }
  split; [apply HR2; exact SA|].
  pose proof (q_recv _ _ Q i ltac:(lia) SA). rewrite SA in HM. lia.
Qed.

(** end of the current step *)
Let E r g := (nTs (t r g) + 1) * 2 ^ g.

Lemma posted_ge r g : r < gR G -> g < gT G ->
  (nTs (t r g) < N g /\ nTs (t r g) + 1 <= posted (t r g)) \/ (nTs (t r g) = N g /\ posted (t r g) = N g).
Proof. intros Hr Hg. destruct (qst r g Hr Hg) as [H|H]; [right; tauto|left; tauto]. Qed.

Lemma begun_le r g : r < gR G -> g < gT G -> begun (t r g) <= N g.
Proof.
  intros Hr Hg. destruct (qst r g Hr Hg) as [H|(H & _ & H2 & _)]; [destruct H; lia|].
  unfold stuckS in H2. lia.
Qed.

Lemma pow_S g : 2 ^ (g + 1) = 2 * 2 ^ g.
Proof. rewrite Nat.add_1_r. reflexivity. Qed.

Lemma pow_p g : 0 < 2 ^ g.
Proof. apply Nat.neq_0_lt_0, Nat.pow_nonzero. lia. Qed.

(** [m]: no group is behind time [m] *)
Definition ahead (m : nat) : Prop := forall r g, r < gR G -> g < gT G -> nTs (t r g) < N g -> m <= E r g.

Lemma not_stuck_send m r g : ahead m -> r < gR G -> g < gT G -> begun (t r g) * 2 ^ g <= m -> cf (t r g) 6 <> 1.
Proof.
  intros AH Hr Hg Hb C. destruct (stuck_send r g Hr Hg C) as (i & Hi & I1 & I2 & I3).
  destruct (WF i Hi) as (_ & W2 & _ & W4 & W5). rewrite I2 in *.
  pose proof (greach_ch G s WF R i Hi) as (_ & (HR1 & _) & _).
  set (r' := cR (ch G i)) in *. set (h := cH (ch G i)) in *. rewrite I2 in *. fold (t r' h) in HR1.
  pose proof (begun_le r g Hr Hg) as BL. pose proof (pow_p g) as PP.
  assert (P : (nTs (t r' h) < N h /\ m <= (nTs (t r' h) + 1) * 2 ^ h /\ nTs (t r' h) + 1 <= posted (t r' h)) \/ posted (t r' h) = N h).
  { destruct (posted_ge r' h W2 W4) as [[H1 H2]|[H1 H2]]; [left|right; auto].
    split; [auto|]. split; [|auto]. apply (AH r' h W2 W4 H1). }
  rewrite HR1 in I3. clear HR1.
  set (b := begun (t r g)) in *. set (p := posted (t r' h)) in *. set (n' := nTs (t r' h)) in *.
  destruct W5 as [Eh|[Eh|Eh]].
  - rewrite Eh in *. rewrite Nat.ltb_irrefl in I3. destruct P as [(P1 & P2 & P3)|P]; [|lia].
    assert (b <= n' + 1) by nia. lia.
  - rewrite Eh in *. replace (g <? g + 1) with true in I3 by lia. replace (g + 1 <? g) with false in I3 by lia.
    pose proof (N_half g W4). rewrite pow_S in P.
    assert (b / 2 <= p); [|lia]. apply Nat.div_le_upper_bound; [lia|].
    destruct P as [(P1 & P2 & P3)|P]; [|lia]. assert (b <= 2 * (n' + 1)) by nia. lia.
  - rewrite Eh in *. replace (h + 1 <? h) with false in I3 by lia. replace (h <? h + 1) with true in I3 by lia.
    pose proof (N_half h Hg). rewrite pow_S in *. pose proof (pow_p h).
    assert (b <= (p + 1) / 2); [|lia]. apply Nat.div_le_lower_bound; [lia|].
    destruct P as [(P1 & P2 & P3)|P]; [|lia]. assert (2 * b <= (n' + 1)) by nia. lia.
Qed.

(** groups whose step begins at or before [m] have predicted it *)
Lemma predicted m r g : ahead m -> r < gR G -> g < gT G -> nTs (t r g) < N g -> nTs (t r g) * 2 ^ g <= m ->
  tpI (t r g) = nTs (t r g) + 1 /\ tpS (t r g) = nTs (t r g) + 1 /\ begun (t r g) = nTs (t r g) + 1.
Proof.
  intros AH Hr Hg Hn Hm. destruct (qst r g Hr Hg) as [H|(H & HI & HS & _)]; [lia|].
  assert (cf (t r g) 1 <> 0).
  { intros C. unfold stuckS in HS. destruct HS as [(_ & C6 & _ & _ & B)|HS]; [|lia].
    apply (not_stuck_send m r g AH Hr Hg); [rewrite B; exact Hm|exact C6]. }
  unfold stuckI, stuckS in *. lia.
Qed.

(** a group which ends its step at [m] has received the data of this step *)
Lemma not_stuck_recv m r g : ahead m -> r < gR G -> g < gT G -> nTs (t r g) < N g -> E r g = m ->
  nRe (t r g) = nTs (t r g) -> cf (t r g) 7 <> 1.
Proof.
  intros AH Hr Hg Hn Em ER C. destruct (stuck_recv r g Hr Hg C) as (i & Hi & I1 & I2 & I4 & I3).
  destruct (WF i Hi) as (W1 & _ & W3 & _ & W5).
  pose proof (greach_ch G s WF R i Hi) as ((HS1 & _) & _).
  set (r' := cS (ch G i)) in *. set (h := cG (ch G i)) in *. rewrite I2 in *. fold (t r' h) in HS1.
  unfold posted in I3. rewrite (is1_1 _ C), ER in I3. rewrite HS1 in I3. clear HS1.
  rewrite ER in I4. set (n := nTs (t r g)) in *.
  pose proof (pow_p g) as PP. pose proof (pow_p h) as PP'.
  (* what the peer has sent *)
  assert (P : begun (t r' h) = N h \/ (nTs (t r' h) < N h /\ m <= (nTs (t r' h) + 1) * 2 ^ h /\
              (begun (t r' h) = nTs (t r' h) + 1 \/ (m < nTs (t r' h) * 2 ^ h /\ nTs (t r' h) <= begun (t r' h))))).
  { destruct (Nat.eq_dec (nTs (t r' h)) (N h)) as [X|X].
    - left. destruct (qst r' h W1 W3) as [H|H]; [tauto|lia].
    - right. assert (L : nTs (t r' h) < N h).
      { destruct (qst r' h W1 W3) as [H|H]; [tauto|lia]. }
      split; [auto|]. split; [apply (AH r' h W1 W3 L)|].
      destruct (le_lt_dec (nTs (t r' h) * 2 ^ h) m) as [L'|L'].
      + left. apply (predicted m r' h AH W1 W3 L L').
      + right. split; [auto|]. destruct (qst r' h W1 W3) as [H|(_ & _ & HS & _)]; [lia|].
        unfold stuckS in HS. lia. }
  set (b := begun (t r' h)) in *. set (n' := nTs (t r' h)) in *.
  unfold E in Em. fold n in Em.
  destruct W5 as [Eh|[Eh|Eh]].
  - assert (h = g) as -> by lia. rewrite Nat.ltb_irrefl in I3.
    destruct P as [P|(P1 & P2 & [P3|[P3 P4]])]; [lia| |].
    + assert (n + 1 <= n' + 1) by nia. lia.
    + assert (n + 1 < n') by nia. lia.
  - (* smaller group sends *)
    rewrite Eh in *. replace (h <? h + 1) with true in I3 by lia. replace (h + 1 <? h) with false in I3 by lia.
    pose proof (N_half h Hg). rewrite pow_S in *.
    assert (n + 1 <= b / 2); [|lia]. apply Nat.div_le_lower_bound; [lia|].
    destruct P as [P|(P1 & P2 & [P3|[P3 P4]])]; [lia| |].
    + assert (2 * (n + 1) <= n' + 1) by nia. lia.
    + assert (2 * (n + 1) < n') by nia. lia.
  - (* larger group sends *)
    rewrite Eh in *. replace (g + 1 <? g) with false in I3 by lia. replace (g <? g + 1) with true in I3 by lia.
    specialize (I4 ltac:(lia)).
    pose proof (N_half g W3). rewrite pow_S in *.
    pose proof (Nat.div_mod n 2 ltac:(lia)) as DM. rewrite I4 in DM.
    assert (D2 : (n + 1 + 1) / 2 = n / 2 + 1). { symmetry. apply (Nat.div_unique _ _ _ 0); lia. }
    rewrite D2 in I3. clear D2. set (k := n / 2) in *.
    destruct P as [P|(P1 & P2 & [P3|[P3 P4]])]; [lia| |].
    + assert (n + 1 <= 2 * (n' + 1)) by nia. lia.
    + assert (n + 1 < 2 * n') by nia. lia.
Qed.

Lemma pairs r g : g + 1 < gT G -> Pair (t r g) (t r (g + 1)).
Proof. intros Hg. destruct (greach_inv G s R r) as ((_ & P & _) & _). apply P. exact Hg. Qed.

Lemma locs r g : g < gT G -> Loc (N g) (t r g).
Proof. intros Hg. destruct (greach_inv G s R r) as ((L & _) & _). rewrite <- (NN r). apply L. exact Hg. Qed.

Lemma n_lt_or r g : r < gR G -> g < gT G -> nTs (t r g) < N g \/ nTs (t r g) = N g.
Proof. intros Hr Hg. destruct (qst r g Hr Hg) as [H|H]; [right|left]; tauto. Qed.

Lemma available m r g : ahead m -> r < gR G -> g < gT G -> nTs (t r g) < N g -> E r g = m ->
  duI (t r g) = nTs (t r g) \/ duS (t r g) = nTs (t r g) ->
  predAvailable (rcfg G r) (rk s r) g = true.
Proof.
  intros AH Hr Hg Hn Em HD. unfold predAvailable. change (nT (rcfg G r)) with (gT G).
  fold (t r g) (t r (g - 1)) (t r (g + 1)).
  pose proof (pow_p g) as PP. unfold E in Em.
  destruct (predicted m r g AH Hr Hg Hn ltac:(nia)) as (TI & TS & _).
  apply andb_true_intro. split.
  - destruct (Nat.eqb_spec g 0) as [|G0]; auto.
    destruct (pairs r (g - 1) ltac:(lia)) as (P1 & P2 & P3 & P4 & P5 & P6).
    replace (g - 1 + 1) with g in * by lia.
    pose proof (N_half (g - 1)) as NH. replace (g - 1 + 1) with g in NH by lia. specialize (NH Hg).
    pose proof (pow_S (g - 1)) as PS. replace (g - 1 + 1) with g in PS by lia.
    assert (Hl : g - 1 < gT G) by lia.
    set (n := nTs (t r g)) in *. set (l := nTs (t r (g - 1))) in *.
    assert (l <> 2 * n + 2). { intros X. destruct (P4 X). lia. }
    destruct (n_lt_or r (g - 1) Hr Hl) as [LL|LL]; fold l in LL; [|lia].
    pose proof (AH r (g - 1) Hr Hl LL) as A. unfold E in A. fold l in A.
    assert (EL : l = 2 * n + 1) by nia.
    destruct (predicted m r (g - 1) AH Hr Hl LL) as (LI & LS & _); [fold l; nia|].
    fold l in LI, LS. apply andb_true_intro. split; apply Nat.eqb_eq; lia.
  - destruct (Nat.eqb_spec g (gT G - 1)) as [|G1]; auto.
    assert (Hl : g + 1 < gT G) by lia. pose proof (N_half g Hl) as NH. pose proof (pow_S g) as PS.
    pose proof (Loc_facts _ _ (locs r (g + 1) Hl)) as (_ & F1 & F2 & _).
    set (n := nTs (t r g)) in *. set (l := nTs (t r (g + 1))) in *.
    assert (n + 1 <= 2 * tpI (t r (g + 1)) /\ n + 1 <= 2 * tpS (t r (g + 1))).
    { destruct (n_lt_or r (g + 1) Hr Hl) as [LL|LL]; fold l in LL; [|lia].
      pose proof (AH r (g + 1) Hr Hl LL) as A. unfold E in A. fold l in A.
      destruct (le_lt_dec (l * 2 ^ (g + 1)) m) as [L'|L'].
      - destruct (predicted m r (g + 1) AH Hr Hl LL L') as (LI & LS & _). fold l in LI, LS.
        assert (n + 1 <= 2 * (l + 1)) by nia. lia.
      - assert (n + 1 < 2 * l) by nia. lia. }
    apply andb_true_intro. split; apply Nat.leb_le; lia.
Qed.

(** a group which ends its step at [m] has done its updates *)
Lemma updated m r g : ahead m -> r < gR G -> g < gT G -> nTs (t r g) < N g -> E r g = m ->
  cf (t r g) 4 = 2 /\ cf (t r g) 5 = 3 /\ duI (t r g) = nTs (t r g) + 1 /\ duS (t r g) = nTs (t r g) + 1.
Proof.
  intros AH Hr Hg Hn Em.
  pose proof (pow_p g) as PP.
  destruct (predicted m r g AH Hr Hg Hn ltac:(unfold E in Em; nia)) as (TI & TS & BG).
  destruct (qst r g Hr Hg) as [H|(H & HI & HS & _)]; [lia|].
  pose proof (q_blk _ _ Q r g Sneigh5 Hr Hg) as B5. pose proof (q_blk _ _ Q r g Sneigh4 Hr Hg) as B4.
  cbn [guard_] in B4, B5. fold (t r g) in B4, B5.
  pose proof (available m r g AH Hr Hg Hn Em) as AV.
  pose proof (not_stuck_recv m r g AH Hr Hg Hn Em) as NR.
  unfold cfe in *.
  destruct HS as [HS|[HS|HS]]; [lia| |].
  - exfalso. destruct HS as (C1 & C3 & C5 & _ & D & _ & C7). rewrite AV in B5 by auto. rewrite C1, C3, C5 in B5.
    assert (cf (t r g) 7 = 2) as X7. { destruct C7 as [[C7 C7']|C7]; auto. now destruct (NR C7'). }
    rewrite X7 in B5. assert ((4 <=? cf (t r g) 0) = true) as X0. { apply Nat.leb_le. destruct HI as [HI|HI]; lia. }
    rewrite X0 in B5. discriminate.
  - destruct HS as (C1 & C5 & _ & D & _). destruct HI as [HI|HI].
    + exfalso. destruct HI as (C0 & C2 & C4 & _ & DI). rewrite AV in B4 by auto. rewrite C0, C1, C2, C4 in B4. discriminate.
    + repeat apply conj; tauto.
Qed.

Lemma consumed m r g : ahead m -> r < gR G -> g < gT G -> nTs (t r g) < N g -> E r g = m ->
  predConsumed (rcfg G r) (rk s r) g = true.
Proof.
  intros AH Hr Hg Hn Em. unfold predConsumed. change (nT (rcfg G r)) with (gT G).
  fold (t r g) (t r (g - 1)) (t r (g + 1)).
  pose proof (pow_p g) as PP. pose proof Em as Em'. unfold E in Em.
  destruct (predicted m r g AH Hr Hg Hn ltac:(nia)) as (TI & TS & _).
  apply andb_true_intro. split.
  - destruct (Nat.eqb_spec g 0) as [|G0]; auto.
    destruct (pairs r (g - 1) ltac:(lia)) as (P1 & P2 & P3 & P4 & P5 & P6).
    replace (g - 1 + 1) with g in * by lia.
    pose proof (N_half (g - 1)) as NH. replace (g - 1 + 1) with g in NH by lia. specialize (NH Hg).
    pose proof (pow_S (g - 1)) as PS. replace (g - 1 + 1) with g in PS by lia.
    assert (Hl : g - 1 < gT G) by lia.
    pose proof (Loc_facts _ _ (locs r (g - 1) Hl)) as (F0 & F1 & F2 & F3 & F4 & F5 & F6 & F6' & F7 & F8 & _).
    set (n := nTs (t r g)) in *. set (l := nTs (t r (g - 1))) in *.
    assert (duI (t r (g - 1)) = 2 * (n + 1) /\ duS (t r (g - 1)) = 2 * (n + 1)) as [D1 D2].
    { destruct (Nat.eq_dec l (2 * n + 2)) as [X|X].
      - assert (~ started (t r (g - 1))) as NS. { intros S. destruct (P5 S). lia. }
        split; [destruct (Nat.eq_dec (duI (t r (g - 1))) (l + 1)) as [Y|Y]; [now destruct (NS (F7 Y))|lia]
               |destruct (Nat.eq_dec (duS (t r (g - 1))) (l + 1)) as [Y|Y]; [now destruct (NS (F8 Y))|lia]].
      - destruct (n_lt_or r (g - 1) Hr Hl) as [LL|LL]; fold l in LL; [|lia].
        pose proof (AH r (g - 1) Hr Hl LL) as A. unfold E in A. fold l in A.
        assert (EL : l = 2 * n + 1) by nia.
        destruct (updated m r (g - 1) AH Hr Hl LL) as (_ & _ & U1 & U2); [unfold E; fold l; nia|].
        fold l in U1, U2. lia. }
    apply andb_true_intro. split; apply Nat.eqb_eq; lia.
  - destruct (Nat.eqb_spec g (gT G - 1)) as [|G1]; auto.
    destruct (Nat.eqb_spec (nTs (t r g) mod 2) 0) as [|OD]; auto. cbn [orb].
    assert (Hl : g + 1 < gT G) by lia. pose proof (N_half g Hl) as NH. pose proof (pow_S g) as PS.
    destruct (pairs r g Hl) as (P1 & P2 & P3 & P4 & P5 & P6).
    pose proof (Loc_facts _ _ (locs r (g + 1) Hl)) as (F0 & F1 & F2 & F3 & F4 & F5 & F6 & F6' & F7 & F8 & _).
    set (n := nTs (t r g)) in *. set (l := nTs (t r (g + 1))) in *.
    pose proof (Nat.div_mod n 2 ltac:(lia)) as DM. pose proof (Nat.mod_upper_bound n 2 ltac:(lia)) as MB.
    assert (n = 2 * (n / 2) + 1) as DN by lia. set (k := n / 2) in *. clearbody k.
    assert (duI (t r (g + 1)) = k + 1 /\ duS (t r (g + 1)) = k + 1) as [D1 D2].
    { destruct (Nat.eq_dec (2 * l) (n + 1)) as [X|X].
      - assert (~ started (t r (g + 1))) as NS. { intros S. destruct (P6 S). lia. }
        split; [destruct (Nat.eq_dec (duI (t r (g + 1))) (l + 1)) as [Y|Y]; [now destruct (NS (F7 Y))|lia]
               |destruct (Nat.eq_dec (duS (t r (g + 1))) (l + 1)) as [Y|Y]; [now destruct (NS (F8 Y))|lia]].
      - destruct (n_lt_or r (g + 1) Hr Hl) as [LL|LL]; fold l in LL; [|lia].
        pose proof (AH r (g + 1) Hr Hl LL) as A. unfold E in A. fold l in A.
        assert (EL : 2 * (l + 1) = n + 1) by nia.
        destruct (updated m r (g + 1) AH Hr Hl LL) as (_ & _ & U1 & U2); [unfold E; fold l; nia|].
        fold l in U1, U2. lia. }
    apply andb_true_intro. split; apply Nat.eqb_eq; lia.
Qed.

Lemma no_active m : forall r g, r < gR G -> g < gT G -> nTs (t r g) < N g -> E r g <> m.
Proof.
  induction m as [m IH] using lt_wf_ind. intros r g Hr Hg Hn Em.
  assert (AH : ahead m).
  { intros r' g' Hr' Hg' Hn'. destruct (le_lt_dec m (E r' g')); auto. now destruct (IH _ l r' g' Hr' Hg' Hn'). }
  destruct (updated m r g AH Hr Hg Hn Em) as (C4 & C5 & _).
  pose proof (q_blk _ _ Q r g Sstep Hr Hg) as B. cbn [guard_] in B. fold (t r g) in B.
  unfold cfe in B. rewrite C4, C5, (consumed m r g AH Hr Hg Hn Em) in B. discriminate.
Qed.

(** If nothing can happen, every group of every rank is done. *)
Theorem quiet_done r g : r < gR G -> g < gT G -> doneb (tg (rk s r) g) = true.
Proof.
  intros Hr Hg. fold (t r g).
  destruct (qst r g Hr Hg) as [(H1 & _ & _ & _ & _ & B & _ & C4 & C7 & C6)|(Hn & _)].
  2: { now destruct (no_active _ r g Hr Hg Hn eq_refl). }
  assert (cf (t r g) 6 <> 1).
  { apply (not_stuck_send (begun (t r g) * 2 ^ g)); auto. intros r' g' Hr' Hg' Hn'.
    now destruct (no_active _ r' g' Hr' Hg' Hn' eq_refl). }
  unfold doneb. rewrite C4, C7. destruct C6 as [|C6]; [contradiction|]. rewrite C6. reflexivity.
Qed.
End Quiet.
