(** Receivers: sampling in the time steps (C40) and search of the entities (C52). *)
From Coq Require Import QArith Qabs Qround Sorted Lqa.
From Verif Require Import Util Series Props_Series Distr Receivers RecvProofs RecvInit Props_Distr Props_Recv.
Open Scope nat_scope.

Lemma filter_nth f n k : f k = true -> k < n -> nth_error (filter f (seq 0 n)) (length (filter f (seq 0 k))) = Some k.
Proof.
  intros Hf Hk. replace n with (k + (n - k)) by lia. rewrite seq_app, filter_app. rewrite nth_error_app2 by lia. rewrite Nat.sub_diag, Nat.add_0_l.
  destruct (n - k) as [|d] eqn:Ed; [lia|]. cbn. rewrite Hf. reflexivity.
Qed.

Section Sampling.
Variable T : Type.
Variables (zero : T) (add mul : T -> T -> T).
Variables (nQt nMd nCr : nat).
Local Notation recv := (recv T).
Local Notation recvs := (recvs T).
Local Notation log := (log T zero nQt nCr).
Local Notation row := (row T zero add mul nQt nMd nCr).
Local Notation wf := (wf T nQt nMd nCr).
Local Notation sampleEl := (sampleEl T zero add mul nQt nMd nCr).
Local Notation localRecvs := (localRecvs T zero add mul nQt nMd nCr).
Variable tol : Q.

(** ** Specification *)

(** a sampling time belongs to the time step [t, t+dt] (up to the tolerance) *)
Definition inStep (t dt s : Q) : Prop := (t - tol < s)%Q /\ (s < t + dt - tol)%Q.

(** events: the local update of a work package, i.e. of the elements first, .., first+nEls-1, from time t to t+dt with the time predictions
    [pred el]; or a flush *)
Inductive event := Local (first nEls enRe : nat) (t dt : Q) (pred : nat -> Q -> list T) | Flush (th : nat).

Definition stepE (fuel : nat) (flags : list bool) (ev : event) (st : recvs) : res recvs :=
  match ev with
  | Local first nEls enRe t dt pred => localRecvs fuel tol flags first nEls enRe t dt pred st
  | Flush th => flushIf T nQt nCr th st
  end.
Fixpoint runE (fuel : nat) (flags : list bool) (evs : list event) (st : recvs) : res recvs :=
  match evs with [] => Ok st | ev :: r => st <- stepE fuel flags ev st;; runE fuel flags r st end.

(** time steps of one element: start, length and time prediction *)
Definition stepsOf (e : nat) (evs : list event) : list (Q * Q * (Q -> list T)) :=
  flat_map (fun ev => match ev with Local first nEls _ t dt pred => if (first <=? e) && (e <? first + nEls) then [(t, dt, pred e)] else [] | _ => [] end) evs.
(** the time steps tile the time from t0 to t1 *)
Fixpoint tiles (t0 : Q) (l : list (Q * Q * (Q -> list T))) (t1 : Q) : Prop :=
  match l with [] => (t0 == t1)%Q | (t, dt, _) :: l => (t == t0)%Q /\ (0 <= dt)%Q /\ tiles (t0 + dt) l t1 end.

(** ** One element, one step *)

Definition sameTime (st : recvs) : Prop := forall r1 r2, In r1 (recvL st) -> In r2 (recvL st) -> rEn r1 = rEn r2 -> rTime r1 = rTime r2.

(** rows of the samples of one step *)
Definition rowsIn (f t : Q) (pd : Q -> list T) (r : recv) (m : nat) : list (Q * list T) :=
  map (fun k => (tick f k (rTime r), row (rEva r) (pd (Qabs (tick f k (rTime r) - t))))) (seq 0 m).

Definition sampled (f t dt : Q) (pd : Q -> list T) (m : nat) (r r' : recv) : Prop :=
  static T r' = static T r /\ rTime r' = tick f m (rTime r) /\ log r' = log r ++ rowsIn f t pd r m /\
  (forall k, k < m -> inStep t dt (tick f k (rTime r))) /\ ~ inStep t dt (tick f m (rTime r)).

Lemma rowsIn_S f t pd r r1 m : rTime r1 = (rTime r + f)%Q -> rEva r1 = rEva r ->
  rowsIn f t pd r (S m) = (rTime r, row (rEva r) (pd (Qabs (rTime r - t)))) :: rowsIn f t pd r1 m.
Proof.
  intros H1 H2. unfold rowsIn. cbn [seq map tick]. f_equal. rewrite <- seq_shift, map_map. apply map_ext. intros k. rewrite H1, H2, tick_shift. reflexivity.
Qed.

(** receivers of other entities are unchanged, those of entity e get m samples *)
Lemma sampleEl_spec ens i e t dt pd : nth_error ens i = Some e -> (forall p, length (pd p) = nQt * nMd * nCr) -> forall fuel st st',
  wf ens st -> sameTime st -> sampleEl fuel tol i t dt pd st = Ok st' ->
  wf ens st' /\ frame T st st' /\ sameTime st' /\ exists m, Forall2 (fun r r' => if rEn r =? e then sampled (freq st) t dt pd m r r' else r' = r) (recvL st) (recvL st').
Proof.
  intros He LP. induction fuel as [|fuel IH]; intros st st' W ST E; [discriminate|]. cbn [Receivers.sampleEl] in E.
  apply bind_ok in E as (p & EP & E). unfold getRecvTimeRel in EP.
  destruct W as ((S1 & S2) & WR). destruct (S2 i e He) as (a & A1 & A2 & A3). rewrite (rd_some _ _ _ A1) in EP. cbn [bind] in EP.
  assert (W : wf ens st) by (split; [split|]; auto).
  destruct (nth_error (recvL st) a) as [r0|] eqn:E0; [|apply nth_error_None in E0; lia]. rewrite (rd_some _ _ _ E0) in EP. cbn [bind] in EP.
  assert (En0 : rEn r0 = e) by (apply (A3 a r0 E0); lia).
  assert (SAME : forall r, In r (recvL st) -> rEn r = e -> rTime r = rTime r0) by (intros r Hr En; apply ST; auto; [eapply nth_error_In; eauto|congruence]).
  destruct (qlt (t - tol) (rTime r0) && qlt (rTime r0) (t + dt - tol)) eqn:C.
  - apply andb_true_iff in C as [C1 C2]. apply qlt_true in C1, C2.
    assert (CK : qlt (- tol) (rTime r0 - t) = true) by (apply qlt_true; lra). rewrite CK in EP. cbn [check bind] in EP. inversion EP; subst p. clear EP CK.
    apply bind_ok in E as (st1 & E1 & E2).
    destruct (writeRecvAll_spec T zero add mul nQt nMd nCr ens st i e (pd (Qabs (rTime r0 - t))) W He (LP _)) as [_ X]. destruct (X st1 E1) as (W1 & F1 & R1).
    assert (Ff : freq st1 = freq st) by apply F1.
    assert (INV : forall r1, In r1 (recvL st1) -> exists r, In r (recvL st) /\ if rEn r =? e then wrote T zero add mul nQt nMd nCr (freq st) (pd (Qabs (rTime r0 - t))) r r1 else r1 = r).
    { clear - R1. intros r1 H. induction R1 as [|x y l l' HR F IH]; [destruct H|]. destruct H as [->|H]; [exists x; split; [left; auto|exact HR]|]. destruct (IH H) as (r & ? & ?). exists r. split; [right; auto|auto]. }
    assert (ST1 : sameTime st1).
    { intros r1 r2 H1 H2 En. destruct (INV r1 H1) as (q1 & Q1 & W1'). destruct (INV r2 H2) as (q2 & Q2 & W2').
      assert (X1 : rEn r1 = rEn q1) by (destruct (rEn q1 =? e); [destruct W1' as (Z & _); apply static_en in Z; apply Z|congruence]).
      assert (X2 : rEn r2 = rEn q2) by (destruct (rEn q2 =? e); [destruct W2' as (Z & _); apply static_en in Z; apply Z|congruence]).
      assert (TT : rTime q1 = rTime q2) by (apply ST; auto; congruence). assert (EE : rEn q1 = rEn q2) by congruence. rewrite EE in W1'. destruct (rEn q2 =? e).
      - destruct W1' as (_ & -> & _), W2' as (_ & -> & _). congruence.
      - congruence. }
    destruct (IH st1 st' W1 ST1 E2) as (W2 & F2 & ST2 & m & R2). split; [auto|]. split; [eapply frame_trans; eauto|]. split; [auto|]. exists (S m).
    apply forall2_nth. { apply Forall2_len in R1, R2. congruence. }
    intros p r r'' Hp Hp''. destruct (forall2_nth_l _ _ _ _ _ R1 Hp) as (r1 & Hp1 & Rw). destruct (forall2_nth_l _ _ _ _ _ R2 Hp1) as (r2 & Hp2 & Rs). assert (r2 = r'') by congruence. subst r2.
    destruct (Nat.eqb_spec (rEn r) e) as [En|En].
    + destruct Rw as (Z1 & Z2 & Z3 & Z4 & Z5). destruct (static_en _ _ _ Z1) as (Y1 & Y2 & Y3). rewrite Y1 in Rs. rewrite (proj2 (Nat.eqb_eq _ _) En) in Rs.
      destruct Rs as (V1 & V2 & V3 & V4 & V5). rewrite Ff in *. assert (TM : rTime r = rTime r0) by (apply SAME; auto; eapply nth_error_In; eauto).
      split; [congruence|]. split; [rewrite V2, Z2; apply tick_shift|]. split; [|split].
      * rewrite V3. rewrite (wrote_log T zero add mul nQt nMd nCr (freq st) (pd (Qabs (rTime r0 - t))) r r1) by (repeat split; auto). rewrite (rowsIn_S _ _ _ r r1) by auto. rewrite <- app_assoc, TM. reflexivity.
      * intros [|k] Hk; [cbn [tick]; rewrite TM; split; auto|]. rewrite <- tick_shift, <- Z2. apply V4. lia.
      * rewrite <- tick_shift, <- Z2. auto.
    + subst r1. rewrite (proj2 (Nat.eqb_neq _ _) En) in Rs. auto.
  - inversion EP; subst p. inversion E; subst st'. split; [auto|]. split; [apply frame_refl|]. split; [auto|]. exists 0.
    apply forall2_nth; [auto|]. intros p r r' H1 H2. assert (r' = r) by congruence. subst r'. destruct (Nat.eqb_spec (rEn r) e) as [En|]; [|auto].
    unfold sampled. cbn [tick rowsIn seq map]. rewrite app_nil_r. split; [auto|split; [auto|split; [auto|split; [intros; lia|]]]].
    rewrite (SAME r (nth_error_In _ _ H1) En). intros (X1 & X2). apply qlt_true in X1, X2. rewrite X1, X2 in C. discriminate.
Qed.

(** ** Work packages *)

Definition pkgOk (flags : list bool) (ev : event) : Prop :=
  match ev with
  | Local first nEls enRe t dt pred =>
      first + nEls <= length flags /\ enRe = length (filter (fun e => nth e flags false) (seq 0 first)) /\
      (forall e p, length (pred e p) = nQt * nMd * nCr)
  | Flush _ => True
  end.

Lemma localRecvs_spec fuel flags first nEls enRe t dt pred st st' : let ens := filter (fun e => nth e flags false) (seq 0 (length flags)) in
  pkgOk flags (Local first nEls enRe t dt pred) -> wf ens st -> (forall r, In r (recvL st) -> In (rEn r) ens) -> sameTime st ->
  localRecvs fuel tol flags first nEls enRe t dt pred st = Ok st' ->
  wf ens st' /\ frame T st st' /\ sameTime st' /\
  Forall2 (fun r r' => if (first <=? rEn r) && (rEn r <? first + nEls) then exists m, sampled (freq st) t dt (pred (rEn r)) m r r' else r' = r) (recvL st) (recvL st').
Proof.
  intros ens (P1 & P2 & P3) W IN ST E. unfold Receivers.localRecvs in E. apply bind_ok in E as ((c & st1) & E & E'). inversion E'; subst st1. clear E'.
  set (INV := fun k (s : nat * recvs) => fst s = length (filter (fun e => nth e flags false) (seq 0 k)) /\ wf ens (snd s) /\ frame T st (snd s) /\ sameTime (snd s) /\
     Forall2 (fun r r' => if (first <=? rEn r) && (rEn r <? k) then exists m, sampled (freq st) t dt (pred (rEn r)) m r r' else r' = r) (recvL st) (recvL (snd s))).
  assert (X : INV (first + nEls) (c, st')).
  { eapply (for_inv INV); [|exact E| |]; [lia| |]; unfold INV.
    - cbn [fst snd]. split; [auto|]. split; [auto|]. split; [apply frame_refl|]. split; [auto|]. apply forall2_nth; [auto|]. intros p x y H1 H2.
      destruct (Nat.leb_spec first (rEn x)), (Nat.ltb_spec (rEn x) first); cbn [andb]; try lia; congruence.
    - intros k (c0 & s0) (c1 & s1) Hk (I1 & I2 & I3 & I4 & I5) B. cbn [fst snd] in *. rewrite (rd_ok _ k false) in B by lia. cbn [bind] in B.
      assert (SQ : filter (fun e => nth e flags false) (seq 0 (S k)) = filter (fun e => nth e flags false) (seq 0 k) ++ (if nth k flags false then [k] else [])).
      { rewrite seq_snoc, filter_app. reflexivity. }
      destruct (nth k flags false) eqn:Fk.
      + apply bind_ok in B as (s2 & B & B'). inversion B'; subst c1 s2. clear B'. assert (NK : nth_error ens c0 = Some k) by (rewrite I1; apply filter_nth; [auto|lia]).
        destruct (sampleEl_spec ens c0 k t dt (pred k) NK (P3 k) fuel s0 s1 I2 I4 B) as (J1 & J2 & J3 & m & J4).
        split; [rewrite SQ, app_length; cbn; lia|]. split; [auto|]. split; [eapply frame_trans; eauto|]. split; [auto|].
        apply forall2_nth; [apply Forall2_len in I5, J4; congruence|]. intros p x y H1 H2. destruct (forall2_nth_l _ _ _ _ _ I5 H1) as (z & Hz & Rz). destruct (forall2_nth_l _ _ _ _ _ J4 Hz) as (y' & Hy & Ry). assert (y' = y) by congruence. subst y'.
        assert (Ff : freq s0 = freq st) by apply I3. rewrite Ff in Ry.
        assert (Ez : rEn z = rEn x). { destruct (_ && _); [destruct Rz as (m' & Z & _); apply static_en in Z; apply Z|congruence]. }
        rewrite Ez in Ry. destruct (Nat.eqb_spec (rEn x) k) as [Ex|Ex].
        * assert (Hc : (first <=? rEn x) && (rEn x <? k) = false) by (destruct (Nat.leb_spec first (rEn x)), (Nat.ltb_spec (rEn x) k); cbn; auto; lia). rewrite Hc in Rz. subst z.
          assert (Hd : (first <=? rEn x) && (rEn x <? S k) = true) by (destruct (Nat.leb_spec first (rEn x)), (Nat.ltb_spec (rEn x) (S k)); cbn; auto; lia). rewrite Hd. exists m. rewrite Ex. auto.
        * subst y. destruct (Nat.leb_spec first (rEn x)), (Nat.ltb_spec (rEn x) k), (Nat.ltb_spec (rEn x) (S k)); cbn [andb] in *; auto; lia.
      + inversion B; subst c1 s1. split; [rewrite SQ, app_nil_r; auto|]. split; [auto|]. split; [auto|]. split; [auto|].
        apply forall2_nth; [apply Forall2_len in I5; congruence|]. intros p x y H1 H2. destruct (forall2_nth_l _ _ _ _ _ I5 H1) as (y' & Hy & Ry). assert (y' = y) by congruence. subst y'.
        assert (Nx : rEn x <> k). { intros Ex. assert (Z := IN x (nth_error_In _ _ H1)). apply filter_In in Z as [_ Z]. congruence. }
        destruct (Nat.leb_spec first (rEn x)), (Nat.ltb_spec (rEn x) k), (Nat.ltb_spec (rEn x) (S k)); cbn [andb] in *; auto; lia. }
  unfold INV in X. cbn [fst snd] in X. tauto.
Qed.

(** ** Histories *)

Section History.
Variables (flags : list bool) (fuel : nat).
Let ens := filter (fun e => nth e flags false) (seq 0 (length flags)).

(** samples of the remaining steps of an element, with the time s of the next sample *)
Fixpoint sampleRows (f : Q) (eva : list T) (s : Q) (l : list (Q * Q * (Q -> list T))) (rows : list (Q * list T)) (s' : Q) : Prop :=
  match l with
  | [] => rows = [] /\ s' = s
  | (t, dt, pd) :: l => exists m rest, rows = map (fun k => (tick f k s, row eva (pd (Qabs (tick f k s - t))))) (seq 0 m) ++ rest /\
      (forall k, k < m -> inStep t dt (tick f k s)) /\ ~ inStep t dt (tick f m s) /\ sampleRows f eva (tick f m s) l rest s'
  end.

Lemma runE_spec evs : Forall (pkgOk flags) evs -> forall st st', wf ens st -> (forall r, In r (recvL st) -> In (rEn r) ens) -> sameTime st ->
  runE fuel flags evs st = Ok st' ->
  Forall2 (fun r r' => static T r' = static T r /\ exists rows, log r' = log r ++ rows /\ sampleRows (freq st) (rEva r) (rTime r) (stepsOf (rEn r) evs) rows (rTime r')) (recvL st) (recvL st').
Proof.
  intros V. induction V as [|ev evs V1 V IH]; intros st st' W IN ST E.
  - inversion E; subst. apply forall2_nth; [auto|]. intros p x y H1 H2. assert (y = x) by congruence. subst y. split; [auto|]. exists []. rewrite app_nil_r. cbn. auto.
  - cbn [runE] in E. apply bind_ok in E as (st1 & E1 & E2). destruct ev as [first nEls enRe t dt pred|th]; cbn [stepE] in E1.
    + destruct (localRecvs_spec fuel flags first nEls enRe t dt pred st st1 V1 W IN ST E1) as (W1 & F1 & ST1 & R1).
      assert (Ff : freq st1 = freq st) by apply F1.
      assert (SR : Forall2 (fun r r' => static T r' = static T r) (recvL st) (recvL st1)).
      { apply forall2_nth; [apply Forall2_len in R1; auto|]. intros p x y H1 H2. destruct (forall2_nth_l _ _ _ _ _ R1 H1) as (y' & H3 & R). assert (y' = y) by congruence. subst y'. destruct (_ && _); [destruct R as (m & R & _); auto|congruence]. }
      assert (IN1 : forall r, In r (recvL st1) -> In (rEn r) ens).
      { clear - SR IN. intros r H. revert IN. induction SR as [|x y l l' HR F IH]; [destruct H|]. intros IN. destruct H as [->|H]; [apply static_en in HR; destruct HR as [-> _]; apply IN; left; auto|]. apply IH; auto. intros; apply IN; right; auto. }
      specialize (IH st1 st' W1 IN1 ST1 E2). apply forall2_nth; [apply Forall2_len in R1, IH; congruence|]. intros p x z H1 H3. destruct (forall2_nth_l _ _ _ _ _ R1 H1) as (y & H2 & R). destruct (forall2_nth_l _ _ _ _ _ IH H2) as (z' & H4 & Z1 & rows & Z2 & Z3). assert (z' = z) by congruence. subst z'.
      assert (Sy : static T y = static T x) by (destruct (_ && _); [destruct R as (m & R & _); auto|congruence]). destruct (static_en _ _ _ Sy) as (Y1 & Y2 & Y3). rewrite Y1, Y2, Ff in *.
      split; [congruence|]. cbn [stepsOf flat_map]. destruct (_ && _).
      * destruct R as (m & _ & R2 & R3 & R4 & R5). exists (rowsIn (freq st) t (pred (rEn x)) x m ++ rows). split; [rewrite Z2, R3, app_assoc; reflexivity|]. cbn [app sampleRows].
        exists m, rows. split; [reflexivity|]. split; [auto|]. split; [auto|]. rewrite <- R2. exact Z3.
      * subst y. exists rows. auto.
    + unfold flushIf in E1. destruct (flushes_spec T zero add mul nQt nMd nCr (fun r => buffSize st - rNBuff r <? th) ens st W) as (l' & El & ->). rewrite El in E1. cbn [bind] in E1. inversion E1; subst st1. clear E1 El.
      destruct (flush_frame T zero add mul nQt nMd nCr (fun r => buffSize st - rNBuff r <? th) ens st W) as (W' & FR).
      specialize (IH _ st' W'). cbn [recvL freq] in IH.
      assert (IN1 : forall r, In r (map (fun r => if buffSize st - rNBuff r <? th then flushed T zero nQt nCr r else r) (recvL st)) -> In (rEn r) ens).
      { intros r H. apply in_map_iff in H as (r0 & <- & H). destruct (_ <? _); apply (IN r0 H). }
      specialize (IH IN1).
      assert (ST1 : sameTime (mkRecvs (map (fun r => if buffSize st - rNBuff r <? th then flushed T zero nQt nCr r else r) (recvL st)) (spEnToRecv st) (buffSize st) (freq st))).
      { intros r1 r2 H1 H2 En. cbn [recvL] in *. apply in_map_iff in H1 as (q1 & <- & H1). apply in_map_iff in H2 as (q2 & <- & H2).
        assert (G : rTime q1 = rTime q2) by (apply ST; auto; destruct (_ <? _), (_ <? _) in En; exact En). destruct (_ <? _), (_ <? _); exact G. }
      specialize (IH ST1 E2). apply forall2_nth; [apply Forall2_len in IH; rewrite map_length in IH; auto|]. intros p x z H1 H3.
      assert (H2 : nth_error (map (fun r => if buffSize st - rNBuff r <? th then flushed T zero nQt nCr r else r) (recvL st)) p = Some (if buffSize st - rNBuff x <? th then flushed T zero nQt nCr x else x)) by (rewrite nth_error_map, H1; reflexivity).
      destruct (forall2_nth_l _ _ _ _ _ IH H2) as (z' & H4 & Z1 & rows & Z2 & Z3). assert (z' = z) by congruence. subst z'. cbn [stepsOf flat_map app].
      destruct (_ <? _); [|split; [auto|exists rows; auto]]. split; [rewrite Z1; reflexivity|]. exists rows. split; [rewrite Z2; f_equal; apply flushed_log|exact Z3].
Qed.

(** the times of the samples never hit the upper end of the tolerance window of a step *)
Definition noHit (f s : Q) (l : list (Q * Q * (Q -> list T))) : Prop := forall t dt pd k, In (t, dt, pd) l -> ~ (tick f k s == t + dt - tol)%Q.

Lemma tick_ge f k s : (0 < f)%Q -> (s <= tick f k s)%Q.
Proof. intros H. induction k as [|k IH]; cbn [tick]; lra. Qed.

Lemma sampleRows_spec f eva : (0 < f)%Q -> forall l s t0 t1 rows s', sampleRows f eva s l rows s' -> tiles t0 l t1 -> (t0 - tol < s)%Q -> noHit f s l ->
  s' = tick f (length rows) s /\ (t1 - tol < s')%Q /\
  forall j, j < length rows -> exists t dt pd, In (t, dt, pd) l /\ inStep t dt (tick f j s) /\ nth_error rows j = Some (tick f j s, row eva (pd (Qabs (tick f j s - t)))).
Proof.
  intros HF. induction l as [|((t & dt) & pd) l IH]; intros s t0 t1 rows s' SR TI LO NH.
  - destruct SR as (-> & ->). cbn in TI. cbn. split; [auto|]. split; [lra|]. intros; lia.
  - destruct SR as (m & rest & -> & S1 & S2 & S3). destruct TI as (T1 & T2 & T3).
    assert (G : (t0 + dt - tol < tick f m s)%Q).
    { assert (X := tick_ge f m s HF). unfold inStep in S2. destruct (Qlt_le_dec (tick f m s) (t + dt - tol)) as [Y|Y]; [exfalso; apply S2; split; [lra|auto]|].
      assert (Z := NH t dt pd m (or_introl eq_refl)). apply Qle_lt_or_eq in Y as [Y|Y]; [lra|exfalso; apply Z; lra]. }
    assert (NH' : noHit f (tick f m s) l). { intros t' dt' pd' k H. rewrite <- tick_add. apply (NH t' dt' pd' (m + k)). right. auto. }
    destruct (IH (tick f m s) (t0 + dt)%Q t1 rest s' S3 T3 G NH') as (I1 & I2 & I3). rewrite app_length, map_length, seq_length. split; [rewrite I1, <- tick_add; reflexivity|]. split; [auto|].
    intros j Hj. destruct (Nat.lt_ge_cases j m) as [Hm|Hm].
    + exists t, dt, pd. split; [left; auto|]. split; [apply S1; auto|]. rewrite nth_error_app1 by (rewrite map_length, seq_length; auto). rewrite nth_error_map, nth_error_seq by auto. reflexivity.
    + destruct (I3 (j - m) ltac:(lia)) as (t' & dt' & pd' & J1 & J2 & J3). exists t', dt', pd'. rewrite <- tick_add in J2, J3. replace (m + (j - m)) with j in J2, J3 by lia. split; [right; auto|]. split; [auto|].
      rewrite nth_error_app2 by (rewrite map_length, seq_length; auto). rewrite map_length, seq_length. exact J3.
Qed.
End History.

End Sampling.
Arguments Local {T}. Arguments Flush {T}.

(** C40: consider any sequence of local updates of work packages and of flushes after the initialisation, in which the time steps of the element
    of a receiver tile the time from the first sampling time to t1.  Then the rows of the receiver are those of the sampling times
    time, time + freq, .. before t1 (up to the tolerance) without gaps, and each row is evaluated in the time step which contains its
    sampling time.  Sampling times which coincide with the end of a step minus the tolerance are excluded, see [C40_stuck_refuted]. *)
Theorem C40_sampling {T} (zero : T) add mul nQt nMd nCr tol nTgs nIn nSe nRecvs deIds geo fr bSize time nEls :
  (0 < tol)%Q -> (0 < fr)%Q -> nTgs <= length nIn -> nTgs <= length nSe -> nRecvs <= length deIds -> nEns nTgs nIn nSe <= nEls ->
  (forall re, re < nRecvs -> nth re deIds 0 < nEns nTgs nIn nSe -> exists e, geo (nth re deIds 0) re = Some e /\ length e = nMd) ->
  exists st ens flags, init T zero nQt nCr nTgs nIn nSe nRecvs deIds geo fr bSize time = Ok st /\ getEnRecv T st = Ok ens /\
    setFlags ens (repeat false nEls) = Ok flags /\
    forall fuel evs st', Forall (pkgOk T nQt nMd nCr flags) evs -> runE T zero add mul nQt nMd nCr tol fuel flags evs st = Ok st' ->
    forall p r t1, nth_error (recvL st) p = Some r -> tiles T time (stepsOf T (rEn r) evs) t1 -> noHit T tol fr time (stepsOf T (rEn r) evs) ->
    exists r', nth_error (recvL st') p = Some r' /\ static T r' = static T r /\
      let rows := rFile r' ++ buffered T zero nQt nCr r' in
      (t1 - tol < time + qn (length rows) * fr)%Q /\
      forall j, j < length rows -> exists s t dt pd, nth_error rows j = Some (s, row T zero add mul nQt nMd nCr (rEva r) (pd (Qabs (s - t)))) /\
        (s == time + qn j * fr)%Q /\ In (t, dt, pd) (stepsOf T (rEn r) evs) /\ (t - tol < s)%Q /\ (s < t + dt - tol)%Q.
Proof.
  intros TL HF LI LS LD NE GEO. destruct (init_wf zero nQt nMd nCr nTgs nIn nSe nRecvs deIds geo fr bSize time LI LS LD GEO) as (st & ens & E & E2 & S & IN & W & B & F & FR).
  assert (LE : forall e, In e ens -> e < nEls).
  { assert (GEO' : forall re, re < nRecvs -> nth re deIds 0 < nEns nTgs nIn nSe -> geo (nth re deIds 0) re <> None) by (intros re H1 H2; destruct (GEO re H1 H2) as (e & -> & _); discriminate).
    destruct (C41_entities zero nQt nCr nTgs nIn nSe nRecvs deIds geo fr bSize time st LI LS LD GEO' E) as (ens' & E2' & _ & I2 & _). rewrite E2 in E2'. inversion E2'; subst ens'. intros e He. apply I2 in He. lia. }
  destruct (C41_flags ens nEls S LE) as (flags & E3 & L3 & F3).
  exists st, ens, flags. split; [auto|split; [auto|split; [auto|]]]. intros fuel evs st' V R p r t1 Hp TI NH.
  rewrite <- L3 in F3. rewrite <- F3 in W, IN.
  assert (ST : sameTime T st). { intros r1 r2 H1 H2 _. destruct (FR r1 H1) as (-> & _). destruct (FR r2 H2) as (-> & _). reflexivity. }
  assert (X := runE_spec T zero add mul nQt nMd nCr tol flags fuel evs V st st' W IN ST R).
  destruct (forall2_nth_l _ _ _ _ _ X Hp) as (r' & Hr' & S1 & rows & S2 & S3). exists r'. split; [auto|split; [auto|]].
  destruct (FR r (nth_error_In _ _ Hp)) as (T1 & T2 & T3). rewrite F, T1 in S3.
  assert (ER : rFile r' ++ buffered T zero nQt nCr r' = rows).
  { change (log T zero nQt nCr r' = rows). rewrite S2. unfold log, buffered. rewrite T2, T3. reflexivity. }
  cbv zeta. rewrite ER. destruct (sampleRows_spec T zero add mul nQt nMd nCr tol fr (rEva r) HF _ _ _ _ _ _ S3 TI ltac:(lra) NH) as (I1 & I2 & I3).
  split; [rewrite I1, tick_eq in I2; exact I2|]. intros j Hj. destruct (I3 j Hj) as (t & dt & pd & J1 & (J2 & J3) & J4). exists (tick fr j time), t, dt, pd. split; [auto|]. split; [apply tick_eq|]. auto.
Qed.
Print Assumptions C40_sampling.

(** The while loop of the sampling terminates: with enough fuel the model never runs out of it.  *)
Section Termination.
Variable T : Type.
Variables (zero : T) (add mul : T -> T -> T).
Variables (nQt nMd nCr : nat).
Local Notation wf := (wf T nQt nMd nCr).
Local Notation sampleEl := (sampleEl T zero add mul nQt nMd nCr).
Variable tol : Q.

Definition nofuel {A} (x : res A) : Prop := x <> Er Efuel.
Lemma nf_bind {A B} (x : res A) (f : A -> res B) : nofuel x -> (forall a, x = Ok a -> nofuel (f a)) -> nofuel (bind x f).
Proof. unfold nofuel. destruct x as [a|e]; cbn; intros H1 H2; [auto|]. intros E. apply H1. congruence. Qed.
Lemma nf_ok {A} (a : A) : nofuel (Ok a).
Proof. discriminate. Qed.
Lemma nf_check b : nofuel (check b).
Proof. destruct b; discriminate. Qed.
Lemma nf_rd {A} (l : list A) i : nofuel (rd l i).
Proof. unfold nofuel, rd. destruct (nth_error l i); discriminate. Qed.
Lemma nf_wr {A} (l : list A) i x : nofuel (wr l i x).
Proof. unfold nofuel, wr. destruct (i <? length l); discriminate. Qed.
Lemma nf_for_n {A} n (body : nat -> A -> res A) : (forall k s, nofuel (body k s)) -> forall lo s, nofuel (for_n n lo body s).
Proof. intros H. induction n as [|n IH]; intros lo s; cbn [for_n]; [apply nf_ok|]. apply nf_bind; auto. Qed.
Lemma nf_for {A} lo hi (body : nat -> A -> res A) s : (forall k s, nofuel (body k s)) -> nofuel (for_ lo hi body s).
Proof. intros H. apply nf_for_n. auto. Qed.
Lemma nf_forb_n {A} n (body : nat -> A -> res (A * bool)) : (forall k s, nofuel (body k s)) -> forall lo s, nofuel (forb_n n lo body s).
Proof. intros H. induction n as [|n IH]; intros lo s; cbn [forb_n]; [apply nf_ok|]. apply nf_bind; auto. intros (s' & b) _. destruct b; [apply nf_ok|auto]. Qed.

Ltac nf := repeat (first [ apply nf_ok | apply nf_check | apply nf_rd | apply nf_wr | apply nf_bind; [|intros ? _] | apply nf_for; intros ? ? | apply nf_forb_n; intros ? ? ]).

Lemma nf_writeOne bSize fr dofs r : nofuel (writeOne T zero add mul nQt nMd nCr bSize fr dofs r).
Proof. unfold writeOne. nf. Qed.
Lemma nf_writeRecvAll sp dofs st : nofuel (writeRecvAll T zero add mul nQt nMd nCr sp dofs st).
Proof. unfold writeRecvAll, forb. nf. destruct (_ =? _); nf. Qed.
Lemma nf_flush r : nofuel (flush T nQt nCr r).
Proof. unfold flush. nf. destruct (_ <? _); nf. Qed.
Lemma nf_flushIf th st : nofuel (flushIf T nQt nCr th st).
Proof.
  unfold flushIf. apply nf_bind; [|intros; apply nf_ok]. apply nf_for. intros k s. apply nf_bind; [apply nf_rd|]. intros a _.
  destruct (_ <? _); [|apply nf_ok]. apply nf_bind; [apply nf_flush|]. intros. apply nf_wr.
Qed.

Definition late (t : Q) (st : recvs T) : Prop := forall r, In r (recvL st) -> (t <= rTime r)%Q.

Lemma qn_S n : (qn (S n) == qn n + 1)%Q.
Proof. unfold qn. rewrite Nat2Z.inj_succ, <- Z.add_1_r, inject_Z_plus. reflexivity. Qed.

Lemma sampleEl_term ens i e t dt pd : nth_error ens i = Some e -> (forall p, length (pd p) = nQt * nMd * nCr) -> forall fuel st,
  wf ens st -> (0 < freq st)%Q -> (forall s, (forall r, In r (recvL st) -> rEn r = e -> (s <= rTime r)%Q) -> (t + dt - tol - s <= qn fuel * freq st)%Q -> nofuel (sampleEl (S fuel) tol i t dt pd st)).
Proof.
  intros He LP. induction fuel as [|fuel IH]; intros st W HF s LT LE; cbn [Receivers.sampleEl]; (apply nf_bind; [unfold getRecvTimeRel; nf; destruct (_ && _); nf|]); intros p EP;
    (destruct p as [p|]; [|apply nf_ok]); (apply nf_bind; [apply nf_writeRecvAll|]); intros st1 E1;
    destruct (W) as ((S1 & S2) & WR); destruct (S2 i e He) as (a & A1 & A2 & A3); unfold getRecvTimeRel in EP; rewrite (rd_some _ _ _ A1) in EP; cbn [bind] in EP;
    (destruct (nth_error (recvL st) a) as [r0|] eqn:E0; [|apply nth_error_None in E0; lia]); rewrite (rd_some _ _ _ E0) in EP; cbn [bind] in EP;
    assert (En0 : rEn r0 = e) by (apply (A3 a r0 E0); lia); assert (X := LT r0 (nth_error_In _ _ E0) En0);
    (destruct (qlt (t - tol) (rTime r0) && qlt (rTime r0) (t + dt - tol)) eqn:C; [|discriminate]); apply andb_true_iff in C as [C1 C2]; apply qlt_true in C1, C2.
  - change (qn 0) with 0%Q in LE. exfalso. lra.
  - destruct (writeRecvAll_spec T zero add mul nQt nMd nCr ens st i e (pd p) W He (LP _)) as [_ Y]. destruct (Y st1 E1) as (W1 & F1 & R1). assert (Ff : freq st1 = freq st) by apply F1.
    apply (IH st1 W1 ltac:(rewrite Ff; auto) (s + freq st)%Q); [|rewrite Ff; rewrite qn_S in LE; lra].
    clear - R1 LT. intros r H En. induction R1 as [|x y l l' HR F IH]; [destruct H|]. destruct H as [->|H].
    + destruct (Nat.eqb_spec (rEn x) e) as [Ex|Ex]; [|subst; contradiction]. destruct HR as (_ & -> & _). specialize (LT x (or_introl eq_refl) Ex). lra.
    + apply IH; auto. intros r' H'. apply LT. right. auto.
Qed.

Lemma sampleEl_mono i t dt pd : forall fuel st, nofuel (sampleEl fuel tol i t dt pd st) -> forall fuel', fuel <= fuel' -> sampleEl fuel' tol i t dt pd st = sampleEl fuel tol i t dt pd st.
Proof.
  induction fuel as [|fuel IH]; intros st H fuel' L; [exfalso; apply H; reflexivity|]. destruct fuel' as [|fuel']; [lia|]. cbn [Receivers.sampleEl] in *.
  destruct (getRecvTimeRel T tol st i t dt) as [[p|]|]; cbn [bind] in *; auto. destruct (writeRecvAll T zero add mul nQt nMd nCr i (pd p) st) as [st1|]; cbn [bind] in *; auto. apply IH; [auto|lia].
Qed.

Lemma qn_bound x f : (0 < f)%Q -> exists n, (x <= qn n * f)%Q.
Proof.
  intros HF. exists (Z.to_nat (Qceiling (x / f))). assert (Y := Qle_ceiling (x / f)). assert (Z1 : (x == x / f * f)%Q) by (field; lra).
  assert (Z2 : (x / f <= qn (Z.to_nat (Qceiling (x / f))))%Q).
  { unfold qn. eapply Qle_trans; [exact Y|]. rewrite <- Zle_Qle. lia. }
  eapply Qle_trans; [apply Qle_lteq; right; exact Z1|]. apply Qmult_le_compat_r; [exact Z2|lra].
Qed.

Lemma late_sampled f t dt pd e m l l' t0 : (0 < f)%Q -> Forall2 (fun r r' => if rEn r =? e then sampled T zero add mul nQt nMd nCr tol f t dt pd m r r' else r' = r) l l' ->
  (forall r, In r l -> (t0 <= rTime r)%Q) -> forall r, In r l' -> (t0 <= rTime r)%Q.
Proof.
  intros HF. induction 1 as [|x y l l' HR F IH]; intros LT r H; [destruct H|]. destruct H as [->|H].
  - assert (X := LT x (or_introl eq_refl)). destruct (rEn x =? e); [destruct HR as (_ & -> & _)|subst; auto]. assert (Y := tick_ge f m (rTime x) HF). lra.
  - apply IH; auto. intros r' H'. apply LT. right. auto.
Qed.

Section Flags.
Variable flags : list bool.
Let ens := filter (fun e => nth e flags false) (seq 0 (length flags)).

Lemma runE_term (f t0 : Q) evs : (0 < f)%Q -> Forall (pkgOk T nQt nMd nCr flags) evs -> exists fuel0, forall fuel st, fuel0 <= fuel ->
  wf ens st -> (forall r, In r (recvL st) -> In (rEn r) ens) -> sameTime T st -> freq st = f -> late t0 st -> nofuel (runE T zero add mul nQt nMd nCr tol fuel flags evs st).
Proof.
  intros HF V. induction V as [|ev evs V1 V (fuel0 & IH)]; [exists 0; intros; apply nf_ok|].
  destruct ev as [first nEls enRe t dt pred|th].
  - destruct (qn_bound (t + dt - tol - t0) f HF) as (n & Hn). exists (Nat.max fuel0 (S n)). intros fuel st LF W IN ST FR LT. cbn [runE stepE]. apply nf_bind.
    + unfold localRecvs. apply nf_bind; [|intros (c & s) _; apply nf_ok].
      destruct V1 as (P1 & P2 & P3).
      set (INV := fun k (s : nat * recvs T) => fst s = length (filter (fun e => nth e flags false) (seq 0 k)) /\ wf ens (snd s) /\ freq (snd s) = f /\ sameTime T (snd s) /\ late t0 (snd s)).
      assert (G : forall k n s, k + n <= length flags -> INV k s -> nofuel (for_n n k (fun el '(enRe0, st0) => f0 <- rd flags el;; (if f0 then st1 <- sampleEl fuel tol enRe0 t dt (pred el) st0;; Ok (enRe0 + 1, st1) else Ok (enRe0, st0))) s)).
      { intros k n0. revert k. induction n0 as [|n0 IH0]; intros k (c & s) Hk (I1 & I2 & I3 & I4 & I5); cbn [for_n]; [apply nf_ok|]. cbn [fst snd] in *.
        rewrite (rd_ok _ k false) by lia. cbn [bind].
        assert (SQ : filter (fun e => nth e flags false) (seq 0 (S k)) = filter (fun e => nth e flags false) (seq 0 k) ++ (if nth k flags false then [k] else [])).
        { rewrite seq_snoc, filter_app. reflexivity. }
        destruct (nth k flags false) eqn:Fk.
        - assert (NK : nth_error ens c = Some k) by (rewrite I1; apply filter_nth; [auto|lia]).
          assert (X : nofuel (sampleEl fuel tol c t dt (pred k) s)).
          { assert (Y := sampleEl_term ens c k t dt (pred k) NK (P3 k) n s I2 ltac:(rewrite I3; auto) t0 (fun r Hr _ => I5 r Hr) ltac:(rewrite I3; exact Hn)).
            rewrite (sampleEl_mono _ _ _ _ _ _ Y fuel ltac:(lia)). exact Y. }
          destruct (sampleEl fuel tol c t dt (pred k) s) as [s1|er] eqn:ES; cbn [bind]; [|intros Q0; apply X; injection Q0 as ->; reflexivity].
          destruct (sampleEl_spec T zero add mul nQt nMd nCr tol ens c k t dt (pred k) NK (P3 k) fuel s s1 I2 I4 ES) as (J1 & J2 & J3 & m & J4).
          apply IH0; [lia|]. split; [cbn [fst]; rewrite SQ, app_length; cbn; lia|]. split; [auto|]. cbn [snd]. split; [rewrite (proj1 (proj2 (proj2 J2))); auto|]. split; [auto|].
          rewrite I3 in J4. exact (late_sampled _ _ _ _ _ _ _ _ t0 HF J4 I5).
        - cbn [bind]. apply IH0; [lia|]. split; [cbn [fst]; rewrite SQ, app_nil_r; auto|]. cbn [snd]. auto. }
      apply G; [lia|]. split; [auto|]. auto.
    + intros st1 E1. destruct (localRecvs_spec T zero add mul nQt nMd nCr tol fuel flags first nEls enRe t dt pred st st1 V1 W IN ST E1) as (W1 & F1 & ST1 & R1).
      apply IH; auto; [lia| |rewrite (proj1 (proj2 (proj2 F1))); auto|].
      * intros r H. clear - R1 H IN. revert IN. induction R1 as [|x y l l' HR F IH]; [destruct H|]. intros IN. destruct H as [->|H]; [|apply IH; auto; intros; apply IN; right; auto].
        assert (Z := IN x (or_introl eq_refl)). destruct (_ && _); [destruct HR as (m & HR & _); apply static_en in HR; destruct HR as [-> _]; auto|subst; auto].
      * intros r H. clear - R1 H LT HF FR. unfold late in LT. rewrite FR in R1. revert LT. induction R1 as [|x y l l' HR F IH]; [destruct H|]. intros IN. destruct H as [->|H]; [|apply IH; auto; intros; apply IN; right; auto].
        assert (Z := IN x (or_introl eq_refl)). destruct (_ && _); [|subst; auto]. destruct HR as (m & _ & -> & _). assert (Y := tick_ge f m (rTime x) HF). lra.
  - exists fuel0. intros fuel st LF W IN ST FR LT. cbn [runE stepE]. apply nf_bind; [apply nf_flushIf|]. intros st1 E1. unfold flushIf in E1.
    destruct (flushes_spec T zero add mul nQt nMd nCr (fun r => buffSize st - rNBuff r <? th) ens st W) as (l' & El & ->). rewrite El in E1. cbn [bind] in E1. inversion E1; subst st1. clear E1 El.
    destruct (flush_frame T zero add mul nQt nMd nCr (fun r => buffSize st - rNBuff r <? th) ens st W) as (W' & _). apply IH; auto; cbn [recvL].
    + intros r H. apply in_map_iff in H as (r0 & <- & H). destruct (_ <? _); apply (IN r0 H).
    + intros r1 r2 H1 H2 En. cbn [recvL] in *. apply in_map_iff in H1 as (q1 & <- & H1). apply in_map_iff in H2 as (q2 & <- & H2).
      assert (G : rTime q1 = rTime q2) by (apply ST; auto; destruct (_ <? _), (_ <? _) in En; exact En). destruct (_ <? _), (_ <? _); exact G.
    + intros r H. apply in_map_iff in H as (r0 & <- & H). destruct (_ <? _); apply (LT r0 H).
Qed.
End Flags.
End Termination.

(** C40: the sampling loop of every time step terminates, for any sequence of updates and flushes. *)
Theorem C40_terminates {T} (zero : T) add mul nQt nMd nCr tol nTgs nIn nSe nRecvs deIds geo fr bSize time nEls :
  (0 < fr)%Q -> nTgs <= length nIn -> nTgs <= length nSe -> nRecvs <= length deIds -> nEns nTgs nIn nSe <= nEls ->
  (forall re, re < nRecvs -> nth re deIds 0 < nEns nTgs nIn nSe -> exists e, geo (nth re deIds 0) re = Some e /\ length e = nMd) ->
  exists st ens flags, init T zero nQt nCr nTgs nIn nSe nRecvs deIds geo fr bSize time = Ok st /\ getEnRecv T st = Ok ens /\
    setFlags ens (repeat false nEls) = Ok flags /\
    forall evs, Forall (pkgOk T nQt nMd nCr flags) evs -> exists fuel0, forall fuel, fuel0 <= fuel -> runE T zero add mul nQt nMd nCr tol fuel flags evs st <> Er Efuel.
Proof.
  intros HF LI LS LD NE GEO. destruct (init_wf zero nQt nMd nCr nTgs nIn nSe nRecvs deIds geo fr bSize time LI LS LD GEO) as (st & ens & E & E2 & S & IN & W & B & F & FR).
  assert (LE : forall e, In e ens -> e < nEls).
  { assert (GEO' : forall re, re < nRecvs -> nth re deIds 0 < nEns nTgs nIn nSe -> geo (nth re deIds 0) re <> None) by (intros re H1 H2; destruct (GEO re H1 H2) as (e & -> & _); discriminate).
    destruct (C41_entities zero nQt nCr nTgs nIn nSe nRecvs deIds geo fr bSize time st LI LS LD GEO' E) as (ens' & E2' & _ & I2 & _). rewrite E2 in E2'. inversion E2'; subst ens'. intros e He. apply I2 in He. lia. }
  destruct (C41_flags ens nEls S LE) as (flags & E3 & L3 & F3).
  exists st, ens, flags. split; [auto|split; [auto|split; [auto|]]]. intros evs V. rewrite <- L3 in F3. rewrite <- F3 in W, IN.
  destruct (runE_term T zero add mul nQt nMd nCr tol flags fr time evs HF V) as (fuel0 & X). exists fuel0. intros fuel L. apply X; auto.
  - intros r1 r2 H1 H2 _. destruct (FR r1 H1) as (-> & _). destruct (FR r2 H2) as (-> & _). reflexivity.
  - intros r H. destruct (FR r H) as (-> & _). lra.
Qed.
Print Assumptions C40_terminates.

(** Three receivers in elements 2, 0, 2 of four elements; sampling every 1/2 from time 0 on.  Element 0 has steps of length 1/4, element 2 steps of
    length 3/4, both up to time 3/2. *)
Definition exPred (e : nat) (p : Q) : list Z := [Qnum (Qred (p * 4)); 7; Z.of_nat e; 1]%Z.
Definition exEvs : list (event Z) :=
  [Local 0 2 0 0 (1#4) exPred; Local 2 2 1 0 (3#4) exPred; Local 0 2 0 (1#4) (1#4) exPred; Local 0 2 0 (1#2) (1#4) exPred; Flush 2; Local 0 2 0 (3#4) (1#4) exPred;
   Local 2 2 1 (3#4) (3#4) exPred; Local 0 2 0 1 (1#4) exPred; Local 0 2 0 (5#4) (1#4) exPred].
Example C40_ex : let flags := [true; false; true; false] in
  setFlags [0;2] (repeat false 4) = Ok flags /\ Forall (pkgOk Z 2 2 1 flags) exEvs /\
  tiles Z 0 (stepsOf Z 0 exEvs) (3#2) /\ tiles Z 0 (stepsOf Z 2 exEvs) (3#2) /\ length (stepsOf Z 0 exEvs) = 6 /\ length (stepsOf Z 2 exEvs) = 2 /\
  exists st', runE Z 0%Z Z.add Z.mul 2 2 1 (1#1000) 5 flags exEvs exSt = Ok st' /\
  map (fun r => map (fun p => (Qred (fst p), snd p)) (rFile r ++ buffered Z 0%Z 2 1 r)) (recvL st') =
    [[(0%Q, [7;1]%Z); ((1#2)%Q, [7;1]%Z); (1%Q, [7;1]%Z)]; [(0%Q, [0;2]%Z); ((1#2)%Q, [2;2]%Z); (1%Q, [1;2]%Z)]; [(0%Q, [14;4]%Z); ((1#2)%Q, [16;4]%Z); (1%Q, [15;4]%Z)]].
Proof.
  cbv zeta. split; [reflexivity|]. split; [repeat constructor; cbn; lia|]. split; [cbn; repeat split; try reflexivity; discriminate|]. split; [cbn; repeat split; try reflexivity; discriminate|].
  split; [reflexivity|split; [reflexivity|]]. eexists. split; [vm_compute; reflexivity|]. vm_compute. reflexivity.
Qed.
Example C40_ex_noHit e : e = 0 \/ e = 2 -> noHit Z (1#1000) (1#2) 0 (stepsOf Z e exEvs).
Proof.
  intros He t dt pd k H E. rewrite tick_eq in E.
  assert (X : exists n : Z, (t + dt == n # 4)%Q).
  { destruct He as [-> | ->]; cbn in H; repeat (destruct H as [H|H]; [inversion H; subst; clear H|]); try destruct H.
    all: match goal with |- exists n, (?q == _)%Q => let v := eval vm_compute in (Qnum (Qred (q * 4))) in exists v; reflexivity end. }
  destruct X as (n & X). rewrite X in E. unfold qn in E. unfold Qeq in E. cbn in E. lia.
Qed.

(** Without the side condition on the sampling times the property does not hold: if a sampling time coincides with the end of a time step
    minus the tolerance, then it is neither output in this step nor in the next one, and the receiver gets no further output. *)
Theorem C40_stuck_refuted : exists tol fr (st : recvs Z) evs, (0 < tol)%Q /\ (0 < fr)%Q /\
  Ok st = init Z 0%Z 1 1 1 [1] [0] 1 [0] (fun _ _ => Some [1%Z]) fr 9 0 /\ setFlags [0] (repeat false 1) = Ok [true] /\
  Forall (pkgOk Z 1 1 1 [true]) evs /\ tiles Z 0 (stepsOf Z 0 evs) 9 /\
  exists st' r, runE Z 0%Z Z.add Z.mul 1 1 1 tol 9 [true] evs st = Ok st' /\ recvL st' = [r] /\ rFile r ++ buffered Z 0%Z 1 1 r = [(0%Q, [5%Z])].
Proof.
  exists (1#8), 1%Q. eexists. exists (map (fun k => Local 0 1 0 (qn k * (9#8)) (9#8) (fun _ _ => [5%Z])) (seq 0 8)). split; [reflexivity|]. split; [reflexivity|]. split; [reflexivity|]. split; [reflexivity|].
  split; [repeat constructor; cbn; lia|]. split; [cbn; repeat split; try reflexivity; discriminate|]. eexists. eexists. split; [vm_compute; reflexivity|]. split; reflexivity.
Qed.
Print Assumptions C40_stuck_refuted.

(** ** C52 *)

Section Closest.
Variable V : Type.
Variable leb : V -> V -> bool.
Hypothesis TO : forall a b, leb a b = true \/ leb b a = true.
Hypothesis TR : forall a b c, leb a b = true -> leb b c = true -> leb a c = true.
Variable vmax : V.

Lemma closestEn_spec nEns dist : match closestEn V leb vmax nEns dist with
  | (None, d) => d = vmax /\ forall en, en < nEns -> leb vmax (dist en) = true
  | (Some en, d) => d = dist en /\ en < nEns /\ leb vmax d = false /\ (forall en', en' < nEns -> leb (dist en) (dist en') = true) /\ (forall en', en' < en -> leb (dist en') (dist en) = false)
  end.
Proof.
  unfold closestEn. induction nEns as [|n IH]; [cbn; split; [auto|intros; lia]|]. rewrite seq_snoc, fold_left_app. cbn [fold_left].
  destruct (fold_left _ _ _) as ([o|] & d); unfold ltb.
  - destruct IH as (-> & I1 & I2 & I3 & I4). destruct (leb (dist o) (dist (0 + n))) eqn:C; cbn [negb Nat.add] in *.
    + split; [auto|]. split; [lia|]. split; [auto|]. split; [|auto]. intros en' H. destruct (Nat.eq_dec en' n) as [->|]; [auto|apply I3; lia].
    + assert (C' : leb (dist n) (dist o) = true) by (destruct (TO (dist n) (dist o)); congruence).
      split; [auto|]. split; [lia|]. split; [destruct (leb vmax (dist n)) eqn:D; auto; rewrite <- I2; symmetry; apply TR with (dist n); auto|]. split.
      * intros en' H. destruct (Nat.eq_dec en' n) as [->|]; [destruct (TO (dist n) (dist n)); auto|]. apply TR with (dist o); auto. apply I3. lia.
      * intros en' H. destruct (leb (dist en') (dist n)) eqn:D; auto. rewrite <- C. symmetry. apply TR with (dist en'); auto.
  - destruct IH as (-> & I1). destruct (leb vmax (dist (0 + n))) eqn:C; cbn [negb Nat.add] in *.
    + split; [auto|]. intros en' H. destruct (Nat.eq_dec en' n) as [->|]; [auto|apply I1; lia].
    + assert (C' : leb (dist n) vmax = true) by (destruct (TO (dist n) vmax); congruence). split; [auto|]. split; [lia|]. split; [auto|]. split.
      * intros en' H. destruct (Nat.eq_dec en' n) as [->|]; [destruct (TO (dist n) (dist n)); auto|]. apply TR with vmax; auto. apply I1. lia.
      * intros en' H. destruct (leb (dist en') (dist n)) eqn:D; auto. rewrite <- C. symmetry. apply TR with (dist en'); auto.
Qed.
End Closest.

(** C52: a point, for which some entity of some rank is closer than the largest number, is attached on exactly one rank; there it is attached to
    an entity with the smallest distance among all entities of all ranks.  Ties go to the lowest rank, within it to the lowest entity. *)
Theorem C52_closest {V} (leb : V -> V -> bool) vmax imax nRanks nEns dist :
  (forall a b, leb a b = true \/ leb b a = true) -> (forall a b c, leb a b = true -> leb b c = true -> leb a c = true) -> 0 < nRanks <= imax ->
  (exists r en, r < nRanks /\ en < nEns r /\ leb vmax (dist r en) = false) ->
  (exists! r, r < nRanks /\ ptToEn V leb vmax imax nRanks nEns dist r <> None) /\
  (forall r en, r < nRanks -> ptToEn V leb vmax imax nRanks nEns dist r = Some en -> en < nEns r /\
    (forall r' en', r' < nRanks -> en' < nEns r' -> leb (dist r en) (dist r' en') = true) /\
    (forall r' en', r' < nRanks -> en' < nEns r' -> leb (dist r' en') (dist r en) = true -> r < r' \/ (r = r' /\ en <= en'))).
Proof.
  intros TO TR HN (r0 & e0 & R1 & R2 & R3). set (cl := fun r => closestEn V leb vmax (nEns r) (dist r)).
  destruct (C16_unique_owner leb imax nRanks (fun r => snd (cl r)) TO TR HN) as (OW & UN).
  assert (SP : forall r, match cl r with
     | (None, d) => d = vmax /\ forall en, en < nEns r -> leb vmax (dist r en) = true
     | (Some en, d) => d = dist r en /\ en < nEns r /\ leb vmax d = false /\ (forall en', en' < nEns r -> leb (dist r en) (dist r en') = true) /\ (forall en', en' < en -> leb (dist r en') (dist r en) = false) end)
    by (intros r; apply closestEn_spec; auto).
  assert (LO : forall r en, en < nEns r -> leb (snd (cl r)) (dist r en) = true).
  { intros r en H. specialize (SP r). destruct (cl r) as ([o|] & d); cbn [snd]; [destruct SP as (-> & _ & _ & SP & _)|destruct SP as (-> & SP)]; auto. }
  assert (OWN : forall r, r < nRanks -> ownsMin leb imax nRanks (fun r => snd (cl r)) r = true -> exists en, fst (cl r) = Some en).
  { intros r Hr H. apply OW in H as ((_ & H) & _); auto. specialize (SP r). specialize (H r0 R1). cbv beta in H. destruct (cl r) as ([o|] & d); cbn [fst snd] in *; [eauto|]. destruct SP as (-> & SP).
    exfalso. assert (X := TR _ _ _ H (LO r0 e0 R2)). congruence. }
  split.
  - destruct UN as (r & (U1 & U2) & U3). exists r. split.
    + split; [auto|]. unfold ptToEn. fold cl. change (fun r => snd (closestEn V leb vmax (nEns r) (dist r))) with (fun r => snd (cl r)). rewrite U2. destruct (OWN r U1 U2) as (en & H). fold (cl r). rewrite H. discriminate.
    + intros r' (H1 & H2). apply U3. split; [auto|]. unfold ptToEn in H2. change (fun r => snd (closestEn V leb vmax (nEns r) (dist r))) with (fun r => snd (cl r)) in H2. destruct (ownsMin _ _ _ _ r'); [auto|]. exfalso. apply H2. auto.
  - intros r en Hr H. unfold ptToEn in H. change (fun r => snd (closestEn V leb vmax (nEns r) (dist r))) with (fun r => snd (cl r)) in H. fold (cl r) in H. destruct (ownsMin _ _ _ _ r) eqn:O; [|discriminate].
    apply OW in O as ((_ & O1) & O2); auto. cbv beta in O1. assert (SPr := SP r). destruct (cl r) as (o & d) eqn:C. cbn [fst] in H. subst o. destruct SPr as (-> & S1 & S2 & S3 & S4).
    split; [auto|]. split.
    + intros r' en' H1 H2. apply TR with (snd (cl r')); [|apply LO; auto]. exact (O1 r' H1).
    + intros r' en' H1 H2 H3.
      assert (HM : holdsMin leb nRanks (fun r => snd (cl r)) r').
      { split; [auto|]. intros q Hq. apply TR with (dist r' en'); [apply LO; auto|]. apply TR with (dist r en); [auto|]. exact (O1 q Hq). }
      assert (X := O2 r' HM). destruct (Nat.eq_dec r r') as [<-|]; [right|left; lia]. split; [auto|]. destruct (Nat.le_gt_cases en en') as [|G]; [auto|]. rewrite (S4 en' G) in H3. discriminate.
Qed.
Print Assumptions C52_closest.

(** three ranks, the distance 3 is found on ranks 1 and 2 *)
Example C52_ex : let dist := fun r en => nth en (nth r [[9;7]; [8;3;3]; [3]] []) 0 in
  map (ptToEn nat Nat.leb 1000 100 3 (fun r => nth r [2;3;1] 0) dist) [0;1;2] = [None; Some 1; None].
Proof. vm_compute. reflexivity. Qed.
