(** Receivers: properties C39, C40, C41, C52. *)
From Coq Require Import QArith Qabs Sorted Lqa.
From Verif Require Import Util Series Distr Receivers RecvProofs RecvInit Props_Distr.
Open Scope nat_scope.

(** * C41: registration *)

(** C41: every receiver whose entity is owned is registered exactly once, in its entity. *)
Theorem C41_registered {T} (zero : T) nQt nCr nTgs nIn nSe nRecvs deIds geo fr bSize time :
  nTgs <= length nIn -> nTgs <= length nSe -> nRecvs <= length deIds ->
  (forall re, re < nRecvs -> nth re deIds 0 < nEns nTgs nIn nSe -> geo (nth re deIds 0) re <> None) ->
  exists st, init T zero nQt nCr nTgs nIn nSe nRecvs deIds geo fr bSize time = Ok st /\
    NoDup (map rId (recvL st)) /\
    (forall re, In re (map rId (recvL st)) <-> re < nRecvs /\ nth re deIds 0 < nEns nTgs nIn nSe) /\
    (forall r, In r (recvL st) -> rEn r = nth (rId r) deIds 0 /\ fresh T zero nQt nCr nTgs nIn nSe geo bSize time r) /\
    buffSize st = bSize /\ freq st = fr.
Proof.
  intros LI LS LD GEO. destruct (init_inv T zero nQt nCr nTgs nIn nSe nRecvs deIds geo bSize time LD GEO LI LS fr) as (st & E & (I1 & I2 & I3) & B & F).
  exists st. split; [exact E|]. cbn [fst snd] in *. unfold keysOf in I1. cbn in I1. rewrite app_nil_r in I1.
  assert (M : map rId (recvL st) = map snd (owned nRecvs deIds (nEns nTgs nIn nSe))) by (rewrite <- I1, map_map; reflexivity).
  split; [rewrite M; apply NoDup_owned|]. split; [|split; [|auto]].
  - intros re. rewrite M, in_map_iff. split.
    + intros ([e re'] & <- & H). apply In_owned in H as (H1 & H2 & H3). cbn. rewrite H3. auto.
    + intros (H1 & H2). exists (nth re deIds 0, re). split; [reflexivity|]. apply In_owned. auto.
  - intros r Hr. rewrite Forall_forall in I3. split; [|auto].
    assert (X : In (rEn r, rId r) (owned nRecvs deIds (nEns nTgs nIn nSe))) by (rewrite <- I1; apply (in_map (fun r => (rEn r, rId r))); auto).
    apply In_owned in X. symmetry. tauto.
Qed.
Print Assumptions C41_registered.

(** C41: getEnRecv yields the entities with receivers in ascending order; the receivers of one entity are consecutive and sparse entity
    number i refers to the receivers of the i-th of these entities ([segs]). *)
Theorem C41_entities {T} (zero : T) nQt nCr nTgs nIn nSe nRecvs deIds geo fr bSize time st :
  nTgs <= length nIn -> nTgs <= length nSe -> nRecvs <= length deIds ->
  (forall re, re < nRecvs -> nth re deIds 0 < nEns nTgs nIn nSe -> geo (nth re deIds 0) re <> None) ->
  init T zero nQt nCr nTgs nIn nSe nRecvs deIds geo fr bSize time = Ok st ->
  exists ens, getEnRecv T st = Ok ens /\ StronglySorted lt ens /\
    (forall e, In e ens <-> e < nEns nTgs nIn nSe /\ exists re, re < nRecvs /\ nth re deIds 0 = e) /\ segs T ens st.
Proof.
  intros LI LS LD GEO E'. destruct (init_inv T zero nQt nCr nTgs nIn nSe nRecvs deIds geo bSize time LD GEO LI LS fr) as (st' & E & (I1 & I2 & I3) & B & F).
  rewrite E in E'. inversion E'; subst st'. clear E'. cbn [fst snd] in *. unfold keysOf in I1. cbn in I1. rewrite app_nil_r in I1.
  assert (M : map rEn (recvL st) = map fst (owned nRecvs deIds (nEns nTgs nIn nSe))) by (rewrite <- I1, map_map; reflexivity).
  assert (SL := sorted_owned nRecvs deIds (nEns nTgs nIn nSe)). rewrite <- M in SL.
  destruct (firsts_spec _ SL) as (F1 & F2 & F3 & F4). rewrite <- I2 in *. set (ens := map (fun p => nth p (map rEn (recvL st)) 0) (spEnToRecv st)) in *.
  assert (LF : forall p, In p (spEnToRecv st) -> p < length (recvL st)).
  { intros p Hp. rewrite I2 in Hp. unfold firsts in Hp. apply filter_In in Hp as [Hp _]. apply in_seq in Hp. rewrite map_length in Hp. lia. }
  exists ens. split; [|split; [auto|split]].
  - unfold getEnRecv. match goal with |- for_ 0 ?n ?bd [] = _ =>
      destruct (for_ok (fun k o => o = firstn k ens) 0 n bd []) as (o & Eo & Io) end; [lia|reflexivity| |].
    + intros k o Hk ->. destruct (nth_error (spEnToRecv st) k) as [p|] eqn:Ep; [|apply nth_error_None in Ep; lia]. rewrite (rd_some _ _ _ Ep). cbn [bind].
      assert (Hp : p < length (recvL st)) by (apply LF; eapply nth_error_In; eauto). apply Nat.ltb_lt in Hp as Hp'. rewrite Hp'. cbn [check bind].
      destruct (nth_error (recvL st) p) as [r|] eqn:Er; [|apply nth_error_None in Er; lia]. rewrite (rd_some _ _ _ Er). cbn [bind]. eexists. split; [reflexivity|].
      symmetry. apply firstn_S_snoc. unfold ens. rewrite nth_error_map, Ep. cbn. f_equal. apply nth_error_nth_lt. rewrite nth_error_map, Er. reflexivity.
    + rewrite Eo, Io, F3, firstn_all. reflexivity.
  - intros e. rewrite F2, M, in_map_iff. split.
    + intros ([e' re] & <- & H). apply In_owned in H as (H1 & H2 & H3). cbn. split; eauto.
    + intros (H1 & re & H2 & H3). exists (e, re). split; [reflexivity|]. apply In_owned. auto.
  - split; [auto|]. intros i e He. destruct (F4 i e He) as (a & A1 & A2 & A3). rewrite map_length in *. exists a. split; [auto|split; [auto|]].
    intros p r Hp. apply A3. rewrite nth_error_map, Hp. reflexivity.
Qed.
Print Assumptions C41_entities.

(** C41: after the set-up exactly the entities with receivers have the receiver flag; so the i-th flagged element is the i-th entity of
    getEnRecv. *)
Theorem C41_flags ens nEls : StronglySorted lt ens -> (forall e, In e ens -> e < nEls) ->
  exists flags, setFlags ens (repeat false nEls) = Ok flags /\ length flags = nEls /\ filter (fun e => nth e flags false) (seq 0 nEls) = ens.
Proof.
  intros S L. unfold setFlags.
  match goal with |- context [for_ 0 (length ens) ?bd (repeat false nEls)] =>
    destruct (for_ok (fun k fl => length fl = nEls /\ forall e, nth e fl false = true <-> In e (firstn k ens)) 0 (length ens) bd (repeat false nEls)) as (fl & E & I1 & I2) end; [lia| | |].
  - split; [apply repeat_length|]. intros e. cbn. destruct (Nat.lt_ge_cases e nEls); [rewrite nth_repeat|rewrite nth_overflow by (rewrite repeat_length; lia)]; split; [discriminate|intros []|discriminate|intros []].
  - intros k fl Hk (J1 & J2). destruct (nth_error ens k) as [e|] eqn:Ee; [|apply nth_error_None in Ee; lia]. rewrite (rd_some _ _ _ Ee). cbn [bind].
    assert (e < nEls) by (apply L; eapply nth_error_In; eauto). rewrite wr_ok by lia. eexists. split; [reflexivity|]. rewrite length_upd. split; [auto|].
    intros e'. rewrite (firstn_S_snoc _ _ _ Ee), in_app_iff, <- J2. cbn. destruct (Nat.eq_dec e e') as [->|N].
    + rewrite nth_upd_eq by lia. tauto.
    + rewrite nth_upd_ne by auto. intuition congruence.
  - exists fl. split; [exact E|]. split; [auto|]. rewrite firstn_all in I2.
    (* two strictly ascending lists with the same entries *)
    assert (SF : StronglySorted lt (filter (fun e => nth e fl false) (seq 0 nEls))).
    { clear. generalize (fun e => nth e fl false). intros f. generalize 0. induction nEls as [|n IH]; intros a; cbn; [constructor|]. destruct (f a); [|apply IH].
      constructor; [apply IH|]. apply Forall_forall. intros x Hx. apply filter_In in Hx as [Hx _]. apply in_seq in Hx. lia. }
    assert (IF : forall e, In e (filter (fun e => nth e fl false) (seq 0 nEls)) <-> In e ens).
    { intros e. rewrite filter_In, in_seq, I2. split; [tauto|]. intros H. assert (X := L e H). split; [lia|auto]. }
    revert S SF IF. generalize (filter (fun e => nth e fl false) (seq 0 nEls)). clear. intros l. revert l. induction ens as [|x ens IH]; intros [|y l] S1 S2 H; auto.
    + exfalso. apply (H y). left; auto.
    + exfalso. apply (H x). left; auto.
    + inversion S1 as [|? ? S1' F1]; inversion S2 as [|? ? S2' F2]; subst. rewrite Forall_forall in F1, F2.
      assert (x = y).
      { destruct (proj1 (H y) (or_introl eq_refl)) as [|X]; [auto|]. destruct (proj2 (H x) (or_introl eq_refl)) as [|Y]; [auto|]. apply F1 in X. apply F2 in Y. lia. }
      subst y. f_equal. apply IH; auto. intros e. split; intros X.
      * destruct (proj1 (H e) (or_intror X)) as [->|]; auto. apply F2 in X. lia.
      * destruct (proj2 (H e) (or_intror X)) as [->|]; auto. apply F1 in X. lia.
Qed.
Print Assumptions C41_flags.

(** five receivers, one of them owned by another rank; two time groups with two and one inner entities, one and two send entities *)
Example C41_ex : exists st, init nat 0 1 1 2 [2;1] [1;2] 5 [3;1;77;3;5] (fun e r => Some [e * 10 + r]) 1 4 0 = Ok st /\
  map rEn (recvL st) = [1;3;3;5] /\ map rId (recvL st) = [1;0;3;4] /\ spEnToRecv st = [0;1;3] /\ getEnRecv nat st = Ok [1;3;5] /\
  setFlags [1;3;5] (repeat false 6) = Ok [false;true;false;true;false;true].
Proof. eexists. split; [vm_compute; reflexivity|]. repeat split; reflexivity. Qed.

(** * C39: rows of a receiver *)

(** k-fold advance of the time by the sampling distance *)
Fixpoint tick (f : Q) (k : nat) (t : Q) : Q := match k with O => t | S k => (tick f k t + f)%Q end.

Lemma tick_eq f k t : (tick f k t == t + qn k * f)%Q.
Proof.
  unfold qn. induction k as [|k IH].
  - cbn. ring.
  - cbn [tick]. rewrite IH. rewrite Nat2Z.inj_succ. unfold Z.succ. rewrite inject_Z_plus. ring.
Qed.

Lemma tick_S f k t : tick f (S k) t = (tick f k t + f)%Q.
Proof. reflexivity. Qed.
Lemma tick_shift f k t : tick f k (t + f)%Q = tick f (S k) t.
Proof. induction k as [|k IH]; [reflexivity|]. cbn [tick] in *. rewrite IH. reflexivity. Qed.
Lemma tick_add f a b t : tick f (a + b) t = tick f b (tick f a t).
Proof. rewrite Nat.add_comm. induction b as [|b IH]; cbn [tick Nat.add]; congruence. Qed.

Lemma Forall2_len {A B} (R : A -> B -> Prop) l l' : Forall2 R l l' -> length l = length l'.
Proof. induction 1; cbn; auto. Qed.

Section Trace.
Variable T : Type.
Variables (zero : T) (add mul : T -> T -> T).
Variables (nQt nMd nCr : nat).
Local Notation recv := (recv T).
Local Notation recvs := (recvs T).
Local Notation log := (log T zero nQt nCr).
Local Notation row := (row T zero add mul nQt nMd nCr).
Local Notation wf := (wf T nQt nMd nCr).
Local Notation writeRecvAll := (writeRecvAll T zero add mul nQt nMd nCr).

(** operations on the receivers *)
Inductive op := Write (i : nat) (dofs : list T) | FlushIf (thresh : nat) | FlushAll.
Definition step (o : op) (st : recvs) : res recvs :=
  match o with
  | Write i dofs => writeRecvAll i dofs st
  | FlushIf th => flushIf T nQt nCr th st
  | FlushAll => flushAll T nQt nCr st
  end.
Fixpoint run (ops : list op) (st : recvs) : res recvs :=
  match ops with [] => Ok st | o :: r => st <- step o st;; run r st end.

(** DOFs written for sparse entity i *)
Definition writesTo (i : nat) (ops : list op) : list (list T) :=
  flat_map (fun o => match o with Write j d => if j =? i then [d] else [] | _ => [] end) ops.
(** rows of equidistant samples: the k-th row holds the time t + k*f and the evaluation of the k-th DOFs *)
Fixpoint trace (f : Q) (eva : list T) (t : Q) (ds : list (list T)) : list (Q * list T) :=
  match ds with [] => [] | d :: ds => (t, row eva d) :: trace f eva (t + f) ds end.

(** sparse entities exist and the arrays of DOFs have the size [N_QUANTITIES][N_ELEMENT_MODES][N_CRUNS] *)
Definition valid (ens : list nat) (o : op) : Prop :=
  match o with Write i d => i < length ens /\ length d = nQt * nMd * nCr | _ => True end.

Lemma trace_nth f eva t ds k d : nth_error ds k = Some d -> nth_error (trace f eva t ds) k = Some (tick f k t, row eva d).
Proof.
  revert t k. induction ds as [|x ds IH]; intros t [|k] H; cbn in *; try discriminate; [inversion H; subst; reflexivity|].
  rewrite (IH (t + f)%Q k H). rewrite tick_shift. reflexivity.
Qed.
Lemma trace_length f eva t ds : length (trace f eva t ds) = length ds.
Proof. revert t. induction ds; cbn; auto. Qed.
Lemma trace_app f eva ds ds' : forall t, trace f eva t (ds ++ ds') = trace f eva t ds ++ trace f eva (tick f (length ds) t) ds'.
Proof. induction ds as [|d ds IH]; intros t; cbn [trace app length]; [reflexivity|]. rewrite IH. rewrite tick_shift. reflexivity. Qed.

(** effect of operations on a receiver *)
Definition follows (f : Q) (ds : list (list T)) (r r' : recv) : Prop :=
  static T r' = static T r /\ log r' = log r ++ trace f (rEva r) (rTime r) ds /\ rTime r' = tick f (length ds) (rTime r).

Lemma follows_refl f r : follows f [] r r.
Proof. repeat split. cbn. rewrite app_nil_r. reflexivity. Qed.
Lemma static_en r r' : static T r' = static T r -> rEn r' = rEn r /\ rEva r' = rEva r /\ rId r' = rId r.
Proof. unfold static. intros H. inversion H. auto. Qed.
Lemma follows_trans f ds ds' r r' r'' : follows f ds r r' -> follows f ds' r' r'' -> follows f (ds ++ ds') r r''.
Proof.
  intros (S1 & L1 & T1) (S2 & L2 & T2). split; [congruence|]. destruct (static_en _ _ S1) as (_ & V & _). split.
  - rewrite L2, L1, T1, V, trace_app, app_assoc. reflexivity.
  - rewrite T2, T1, app_length. symmetry. apply tick_add.
Qed.

Lemma NoDup_nth_error_eq (l : list nat) i j e : NoDup l -> nth_error l i = Some e -> nth_error l j = Some e -> i = j.
Proof. intros N H1 H2. eapply NoDup_nth_error; eauto; [eapply nth_error_lt; eauto|congruence]. Qed.

Lemma step_spec ens o st st' : NoDup ens -> wf ens st -> valid ens o -> step o st = Ok st' ->
  wf ens st' /\ frame T st st' /\ forall i e p r, nth_error ens i = Some e -> nth_error (recvL st) p = Some r -> rEn r = e ->
    exists r', nth_error (recvL st') p = Some r' /\ follows (freq st) (writesTo i [o]) r r'.
Proof.
  intros ND W V E. destruct o as [j d|th|]; cbn [step valid] in *.
  - destruct V as (Hj & LD). destruct (nth_error ens j) as [ej|] eqn:Ej; [|apply nth_error_None in Ej; lia].
    destruct (writeRecvAll_spec T zero add mul nQt nMd nCr ens st j ej d W Ej LD) as [_ X]. destruct (X st' E) as (W' & FR & F2). split; [auto|split; [auto|]].
    intros i e p r He Hp En. destruct (forall2_nth_l _ _ _ _ _ F2 Hp) as (r' & Hr' & R). exists r'. split; [auto|]. cbn. rewrite app_nil_r.
    destruct (Nat.eqb_spec j i) as [<-|N].
    + assert (ej = e) by congruence. subst ej. rewrite <- En, Nat.eqb_refl in R. destruct R as (R1 & R2 & R3 & R4 & R5). split; [auto|]. split; [|auto].
      cbn. apply (wrote_log T zero add mul nQt nMd nCr (freq st)). repeat split; auto.
    + destruct (Nat.eqb_spec (rEn r) ej) as [X1|X1]; [exfalso; apply N; eapply NoDup_nth_error_eq; eauto; congruence|]. subst r'. apply follows_refl.
  - unfold flushIf in E. destruct (flushes_spec T zero add mul nQt nMd nCr (fun r => buffSize st - rNBuff r <? th) ens st W) as (l' & El & ->). rewrite El in E. cbn [bind] in E. inversion E; subst st'. clear E El.
    destruct (flush_frame T zero add mul nQt nMd nCr (fun r => buffSize st - rNBuff r <? th) ens st W) as (W' & FR). split; [auto|split; [auto|]].
    intros i e p r He Hp En. cbn [recvL]. rewrite nth_error_map, Hp. cbn [option_map]. eexists. split; [reflexivity|]. destruct (_ <? _); [|apply follows_refl].
    split; [reflexivity|]. split; [|reflexivity]. cbn [writesTo flat_map app trace]. rewrite app_nil_r. apply flushed_log.
  - unfold flushAll in E. destruct (flushes_spec T zero add mul nQt nMd nCr (fun _ => true) ens st W) as (l' & El & ->). cbn beta iota in El. rewrite El in E. cbn [bind] in E. inversion E; subst st'. clear E El.
    destruct (flush_frame T zero add mul nQt nMd nCr (fun _ => true) ens st W) as (W' & FR). split; [auto|split; [auto|]].
    intros i e p r He Hp En. cbn [recvL]. rewrite nth_error_map, Hp. cbn [option_map]. eexists. split; [reflexivity|].
    split; [reflexivity|]. split; [|reflexivity]. cbn [writesTo flat_map app trace]. rewrite app_nil_r. apply flushed_log.
Qed.

Lemma frame_trans st st' st'' : frame T st st' -> frame T st' st'' -> frame T st st''.
Proof. intros (A1 & A2 & A3 & A4) (B1 & B2 & B3 & B4). repeat split; congruence. Qed.
Lemma frame_refl st : frame T st st.
Proof. repeat split. Qed.

Lemma run_spec ens ops : NoDup ens -> Forall (valid ens) ops -> forall st st', wf ens st -> run ops st = Ok st' ->
  wf ens st' /\ frame T st st' /\ forall i e p r, nth_error ens i = Some e -> nth_error (recvL st) p = Some r -> rEn r = e ->
    exists r', nth_error (recvL st') p = Some r' /\ follows (freq st) (writesTo i ops) r r'.
Proof.
  intros ND V. induction V as [|o ops Vo V IH]; intros st st' W E.
  - inversion E; subst. split; [auto|split; [apply frame_refl|]]. intros i e p r He Hp En. exists r. split; [auto|]. apply follows_refl.
  - cbn [run] in E. apply bind_ok in E as (st1 & E1 & E2). destruct (step_spec ens o st st1 ND W Vo E1) as (W1 & F1 & H1).
    destruct (IH st1 st' W1 E2) as (W2 & F2 & H2). split; [auto|split; [eapply frame_trans; eauto|]]. intros i e p r He Hp En.
    destruct (H1 i e p r He Hp En) as (r1 & P1 & R1). assert (En1 : rEn r1 = e) by (destruct R1 as (S1 & _); apply static_en in S1; destruct S1 as [-> _]; auto).
    destruct (H2 i e p r1 He P1 En1) as (r2 & P2 & R2). exists r2. split; [auto|]. destruct F1 as (_ & _ & Ff & _). rewrite Ff in R2.
    change (writesTo i (o :: ops)) with (writesTo i ([o] ++ ops)). unfold writesTo. rewrite flat_map_app. eapply follows_trans; eauto.
Qed.

(** a round: samples followed by a flush of the buffers which are nearly full *)
Definition round (th : nat) (ws : list (nat * list T)) : list op := map (fun w => Write (fst w) (snd w)) ws ++ [FlushIf th].
Definition count (i : nat) (ws : list (nat * list T)) : nat := length (filter (fun w => fst w =? i) ws).

Lemma writes_ok ens th : NoDup ens -> forall ws st used, wf ens st -> Forall (valid ens) (map (fun w => Write (fst w) (snd w)) ws) -> th <= buffSize st ->
  (forall i e r, nth_error ens i = Some e -> In r (recvL st) -> rEn r = e -> rNBuff r <= buffSize st - th + used i) ->
  (forall i, used i + count i ws <= th) ->
  exists st', run (map (fun w => Write (fst w) (snd w)) ws) st = Ok st' /\ wf ens st' /\ buffSize st' = buffSize st.
Proof.
  intros ND. induction ws as [|[j d] ws IH]; intros st used W V TB B C.
  - exists st. split; [reflexivity|auto].
  - cbn [map fst snd run step]. inversion V as [|? ? V1 V2]; subst. cbn in V1. destruct V1 as (Hj & LD).
    destruct (nth_error ens j) as [ej|] eqn:Ej; [|apply nth_error_None in Ej; lia].
    destruct (writeRecvAll_spec T zero add mul nQt nMd nCr ens st j ej d W Ej LD) as [X Y].
    destruct X as (st1 & E1).
    { intros r Hr En. assert (Z := B j ej r Ej Hr En). specialize (C j). unfold count in C. cbn in C. rewrite Nat.eqb_refl in C. cbn in C. lia. }
    rewrite E1. cbn [bind]. destruct (Y st1 E1) as (W1 & F1 & F2). assert (BS : buffSize st1 = buffSize st) by apply F1.
    destruct (IH st1 (fun i => if i =? j then S (used i) else used i) W1 V2 ltac:(lia)) as (st' & E' & W' & B').
    + intros i e r He Hr En. rewrite BS. apply In_nth_error in Hr as (p & Hp).
      assert (exists r0, nth_error (recvL st) p = Some r0) as (r0 & Hr0). { destruct (nth_error (recvL st) p) eqn:Z; [eauto|]. apply nth_error_None in Z. apply Forall2_len in F2. apply nth_error_lt in Hp. lia. }
      destruct (forall2_nth_l _ _ _ _ _ F2 Hr0) as (r1 & Hr1 & R). assert (r1 = r) by congruence. subst r1.
      destruct (Nat.eqb_spec (rEn r0) ej) as [X1|X1].
      * destruct R as (R1 & _ & _ & R4 & _). apply static_en in R1 as (R1 & _). assert (i = j) by (eapply NoDup_nth_error_eq; eauto; congruence). subst i. rewrite Nat.eqb_refl.
        assert (Z := B j ej r0 Ej (nth_error_In _ _ Hr0) X1). lia.
      * subst r. assert (Z := B i e r0 He (nth_error_In _ _ Hr0) En). destruct (i =? j); lia.
    + intros i. specialize (C i). unfold count in *. cbn in C. rewrite (Nat.eqb_sym i j). destruct (j =? i); cbn in C; lia.
    + exists st'. split; [auto|]. split; [auto|lia].
Qed.

Lemma run_app a b st : run (a ++ b) st = (st <- run a st;; run b st).
Proof. revert st. induction a as [|o a IH]; intros st; cbn; [reflexivity|]. destruct (step o st); cbn; auto. Qed.

Lemma rounds_ok ens th : NoDup ens -> forall rounds st, wf ens st -> th <= buffSize st ->
  Forall (fun ws => Forall (valid ens) (map (fun w => Write (fst w) (snd w)) ws) /\ forall i, count i ws <= th) rounds ->
  (forall r, In r (recvL st) -> rNBuff r <= buffSize st - th) ->
  exists st', run (concat (map (round th) rounds)) st = Ok st'.
Proof.
  intros ND. induction rounds as [|ws rounds IH]; intros st W TB V B; [eexists; reflexivity|].
  inversion V as [|? ? (V1 & V2) V3]; subst. cbn [map concat]. unfold round at 1. rewrite <- app_assoc, run_app.
  destruct (writes_ok ens th ND ws st (fun _ => 0) W V1 TB) as (st1 & E1 & W1 & B1).
  { intros i e r He Hr En. rewrite Nat.add_0_r. auto. }
  { intros i. cbn. auto. }
  rewrite E1. cbn [bind app run step]. unfold flushIf.
  destruct (flushes_spec T zero add mul nQt nMd nCr (fun r => buffSize st1 - rNBuff r <? th) ens st1 W1) as (l' & El & ->). rewrite El. cbn [bind].
  destruct (flush_frame T zero add mul nQt nMd nCr (fun r => buffSize st1 - rNBuff r <? th) ens st1 W1) as (W' & FR). apply IH; auto; cbn [buffSize recvL]; [lia|].
  intros r Hr. apply in_map_iff in Hr as (r0 & <- & Hr0). destruct (Nat.ltb_spec (buffSize st1 - rNBuff r0) th); [cbn; lia|].
  destruct W1 as (_ & W1). rewrite Forall_forall in W1. destruct (W1 r0 Hr0) as (_ & _ & W1' & _). lia.
Qed.

End Trace.
Arguments Write {T}. Arguments FlushIf {T}. Arguments FlushAll {T}.

(** initial states *)
Lemma init_wf {T} (zero : T) nQt nMd nCr nTgs nIn nSe nRecvs deIds geo fr bSize time :
  nTgs <= length nIn -> nTgs <= length nSe -> nRecvs <= length deIds ->
  (forall re, re < nRecvs -> nth re deIds 0 < nEns nTgs nIn nSe -> exists e, geo (nth re deIds 0) re = Some e /\ length e = nMd) ->
  exists st ens, init T zero nQt nCr nTgs nIn nSe nRecvs deIds geo fr bSize time = Ok st /\ getEnRecv T st = Ok ens /\ StronglySorted lt ens /\
    (forall r, In r (recvL st) -> In (rEn r) ens) /\ wf T nQt nMd nCr ens st /\ buffSize st = bSize /\ freq st = fr /\
    (forall r, In r (recvL st) -> rTime r = time /\ rFile r = [] /\ rNBuff r = 0).
Proof.
  intros LI LS LD GEO. assert (GEO' : forall re, re < nRecvs -> nth re deIds 0 < nEns nTgs nIn nSe -> geo (nth re deIds 0) re <> None).
  { intros re H1 H2. destruct (GEO re H1 H2) as (e & -> & _). discriminate. }
  destruct (C41_registered zero nQt nCr nTgs nIn nSe nRecvs deIds geo fr bSize time LI LS LD GEO') as (st & E & ND & IDS & RS & B & F).
  destruct (C41_entities zero nQt nCr nTgs nIn nSe nRecvs deIds geo fr bSize time st LI LS LD GEO' E) as (ens & E2 & S2 & I2 & SG).
  assert (IN : forall r, In r (recvL st) -> rId r < nRecvs /\ nth (rId r) deIds 0 < nEns nTgs nIn nSe) by (intros r Hr; apply IDS, in_map; auto).
  exists st, ens. repeat split; auto; try (destruct SG as [A1 A2]; auto; fail).
  - intros r Hr. apply I2. destruct (RS r Hr) as (-> & _). destruct (IN r Hr). eauto.
  - apply Forall_forall. intros r Hr. destruct (RS r Hr) as (R0 & R1 & R2 & R3 & R4 & R5 & R6 & _). destruct (IN r Hr) as (N1 & N2).
    destruct (GEO (rId r) N1 N2) as (e & G1 & G2). rewrite <- R0, R6 in G1. inversion G1; subst e. unfold wfr. rewrite R2, R3, !repeat_length, R1, B. repeat split; auto; lia.
  - apply (RS r H).
  - apply (RS r H).
  - apply (RS r H).
Qed.

(** C39: for every sequence of operations after the initialisation, the file of a receiver followed by its buffered rows is the sequence of
    the samples written for its entity; the k-th sample has the time  time + k * freq. *)
Theorem C39_trace {T} (zero : T) add mul nQt nMd nCr nTgs nIn nSe nRecvs deIds geo fr bSize time :
  nTgs <= length nIn -> nTgs <= length nSe -> nRecvs <= length deIds ->
  (forall re, re < nRecvs -> nth re deIds 0 < nEns nTgs nIn nSe -> exists e, geo (nth re deIds 0) re = Some e /\ length e = nMd) ->
  exists st ens, init T zero nQt nCr nTgs nIn nSe nRecvs deIds geo fr bSize time = Ok st /\ getEnRecv T st = Ok ens /\
    forall ops st', Forall (valid T nQt nMd nCr ens) ops -> run T zero add mul nQt nMd nCr ops st = Ok st' ->
    forall p r, nth_error (recvL st) p = Some r -> exists i r', nth_error ens i = Some (rEn r) /\ nth_error (recvL st') p = Some r' /\ static T r' = static T r /\
      let rows := rFile r' ++ buffered T zero nQt nCr r' in
      length rows = length (writesTo T i ops) /\
      forall k d, nth_error (writesTo T i ops) k = Some d -> exists t, nth_error rows k = Some (t, row T zero add mul nQt nMd nCr (rEva r) d) /\
        (t == time + qn k * fr)%Q.
Proof.
  intros LI LS LD GEO. destruct (init_wf zero nQt nMd nCr nTgs nIn nSe nRecvs deIds geo fr bSize time LI LS LD GEO) as (st & ens & E & E2 & S & IN & W & B & F & FR).
  exists st, ens. split; [auto|split; [auto|]]. intros ops st' V R p r Hp.
  assert (ND : NoDup ens). { clear - S. induction S as [|x l S IH2 F]; constructor; auto. intros X. rewrite Forall_forall in F. apply F in X. lia. }
  destruct (In_nth_error _ _ (IN r (nth_error_In _ _ Hp))) as (i & Hi).
  destruct (run_spec T zero add mul nQt nMd nCr ens ops ND V st st' W R) as (_ & _ & X). destruct (X i (rEn r) p r Hi Hp eq_refl) as (r' & Hr' & (F1 & F2 & F3)).
  exists i, r'. split; [auto|split; [auto|split; [auto|]]]. destruct (FR r (nth_error_In _ _ Hp)) as (T1 & T2 & T3).
  cbv zeta. change (rFile r' ++ buffered T zero nQt nCr r') with (log T zero nQt nCr r'). rewrite F2. unfold log, buffered. rewrite T2, T3. cbn [seq map app]. rewrite trace_length. split; [auto|].
  intros k d Hk. eexists. split; [apply trace_nth; eauto|]. rewrite F, T1. apply tick_eq.
Qed.
Print Assumptions C39_trace.

(** C39: all samples are in the file after the final flush of the destructor. *)
Theorem C39_complete {T} (zero : T) nQt nMd nCr ens st : wf T nQt nMd nCr ens st ->
  exists st', flushAll T nQt nCr st = Ok st' /\ forall p r, nth_error (recvL st) p = Some r -> exists r', nth_error (recvL st') p = Some r' /\
    rNBuff r' = 0 /\ rFile r' = rFile r ++ buffered T zero nQt nCr r.
Proof.
  intros W. unfold flushAll. destruct (flushes_spec T zero (fun a _ => a) (fun a _ => a) nQt nMd nCr (fun _ => true) ens st W) as (l' & El & ->). cbn beta iota in El. rewrite El. cbn [bind].
  eexists. split; [reflexivity|]. intros p r Hp. cbn [recvL]. rewrite nth_error_map, Hp. cbn [option_map]. eexists. split; [reflexivity|]. split; reflexivity.
Qed.
Print Assumptions C39_complete.

(** C39: the buffers do not overflow and no access is out of bounds if at most [th] samples of one entity are written between two flushes
    (flushIf with threshold [th]). *)
Theorem C39_no_overflow {T} (zero : T) add mul nQt nMd nCr nTgs nIn nSe nRecvs deIds geo fr bSize time th :
  nTgs <= length nIn -> nTgs <= length nSe -> nRecvs <= length deIds -> th <= bSize ->
  (forall re, re < nRecvs -> nth re deIds 0 < nEns nTgs nIn nSe -> exists e, geo (nth re deIds 0) re = Some e /\ length e = nMd) ->
  exists st ens, init T zero nQt nCr nTgs nIn nSe nRecvs deIds geo fr bSize time = Ok st /\ getEnRecv T st = Ok ens /\
    forall rounds, Forall (fun ws => Forall (fun w => fst w < length ens /\ length (snd w) = nQt * nMd * nCr) ws /\ forall i, count T i ws <= th) rounds ->
    exists st', run T zero add mul nQt nMd nCr (concat (map (round T th) rounds)) st = Ok st'.
Proof.
  intros LI LS LD TB GEO. destruct (init_wf zero nQt nMd nCr nTgs nIn nSe nRecvs deIds geo fr bSize time LI LS LD GEO) as (st & ens & E & E2 & S & IN & W & B & F & FR).
  exists st, ens. split; [auto|split; [auto|]]. intros rounds V.
  assert (ND : NoDup ens). { clear - S. induction S as [|x l S IH2 F]; constructor; auto. intros X. rewrite Forall_forall in F. apply F in X. lia. }
  apply (rounds_ok T zero add mul nQt nMd nCr ens th ND); auto; [lia| |].
  - eapply Forall_impl; [|exact V]. intros ws (V1 & V2). split; [|auto]. apply Forall_map. eapply Forall_impl; [|exact V1]. intros w Hw. exact Hw.
  - intros r Hr. destruct (FR r Hr) as (_ & _ & ->). lia.
Qed.
Print Assumptions C39_no_overflow.

(** three receivers in two entities, buffers of three samples, two quantities, two modes, one simulation *)
Definition exSt : recvs Z := match init Z 0%Z 2 1 1 [3] [1] 3 [2;0;2] (fun e r => Some [1%Z; Z.of_nat r]) (1#2) 3 0 with Ok st => st | Er _ => mkRecvs [] [] 0 0 end.
Example C39_ex : wf Z 2 2 1 [0;2] exSt /\ exists st', run Z 0%Z Z.add Z.mul 2 2 1
    (concat (map (round Z 2) [[(1, [1;2;3;4]%Z); (0, [5;6;7;8]%Z); (1, [9;10;11;12]%Z)]; [(1, [13;14;15;16]%Z)]])) exSt = Ok st' /\
  map rFile (recvL st') = [[]; [(0%Q, [1;3]%Z); ((1#2)%Q, [9;11]%Z)]; [(0%Q, [5;11]%Z); ((1#2)%Q, [29;35]%Z)]] /\
  map (buffered Z 0%Z 2 1) (recvL st') = [[(0%Q, [11;15]%Z)]; [((4#4)%Q, [13;15]%Z)]; [((4#4)%Q, [41;47]%Z)]].
Proof.
  split.
  - split; [|repeat constructor]. split; [reflexivity|]. intros [|[|[|i]]] e H; inversion H; subst; eexists; (split; [reflexivity|]); (split; [cbn; lia|]);
      intros [|[|[|[|p]]]] r Hr; inversion Hr; subst; cbn; lia.
  - eexists. split; [vm_compute; reflexivity|]. split; reflexivity.
Qed.
