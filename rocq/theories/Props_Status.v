(** C50: statuses of work packages follow their life cycle, whatever operations are called.  Model: Shared.v. *)
From Verif Require Import Util SchedModel Shared.

(** Status of the package of worker [w] of the region with the given id: first region with this id. *)
Definition statusOf (s : shared) (id w : nat) : option status :=
  match find (fun r => wId r =? id) (rgns s) with
  | Some r => nth_error (wStat r) w
  | None => None
  end.

(** Is there a region with this id? *)
Definition known (s : shared) (id : nat) : Prop := In id (map wId (rgns s)).

(** What an operation may do to the status of the package of worker [w] of region [id]. *)
Definition legal (O : fops) (nw : nat) (o : op O) (s : shared) (id w : nat) (old new : option status) : Prop :=
  match o with
  | OReg _ a => if id =? aId a then (known s id -> new = old \/ new = Some WAI) /\ (~ known s id -> new = Some WAI) else new = old
  | OSetAll _ v id' => if id =? id' then v = RDY /\ (old = Some WAI \/ old = Some FIN) /\ new = Some RDY else new = old
  | OSetTd _ v id' w' =>
      if (id =? id') && (w =? w') then (v = IPR /\ old = Some RDY /\ new = Some IPR) \/ (v = FIN /\ old = Some IPR /\ new = Some FIN)
      else new = old
  | OReset _ v => known s id -> new = Some v
  | OBal _ _ => new = old
  end.

(** every region has one status per worker *)
Definition full (nw : nat) (s : shared) : Prop := Forall (fun r => length (wStat r) = nw) (rgns s).

Lemma getWrkRgn_find l id p : getWrkRgn l id = Ok p -> exists r, nth_error l p = Some r /\ wId r = id /\
  find (fun r => wId r =? id) l = Some r /\ forall q r', q < p -> nth_error l q = Some r' -> wId r' <> id.
Proof.
  revert p. induction l as [|r l IH]; intros p H; cbn in H; [discriminate|].
  cbn [find]. destruct (wId r =? id) eqn:E.
  - inversion H; subst. exists r. apply Nat.eqb_eq in E. repeat split; auto. intros q r' Hq. lia.
  - destruct (getWrkRgn l id) as [p'|] eqn:G; cbn in H; [|discriminate]. inversion H; subst.
    destruct (IH p' eq_refl) as (r0 & A & B & C & D). exists r0. cbn. repeat split; auto.
    intros [|q] r' Hq Hr; cbn in Hr; [inversion Hr; subst; apply Nat.eqb_neq in E; auto | apply (D q r'); auto; lia].
Qed.

Lemma find_upd l id p r st : getWrkRgn l id = Ok p -> nth_error l p = Some r ->
  forall id', find (fun r => wId r =? id') (upd l p (mkWrgn (wId r) (wStep r) (wTg r) (wPrio r) st)) =
    if id' =? id then Some (mkWrgn (wId r) (wStep r) (wTg r) (wPrio r) st) else find (fun r => wId r =? id') l.
Proof.
  revert p. induction l as [|a l IH]; intros p H Hr id'; cbn in H; [discriminate|].
  destruct (wId a =? id) eqn:E.
  - inversion H; subst. cbn in Hr. inversion Hr; subst. apply Nat.eqb_eq in E. cbn [upd find wId].
    rewrite (Nat.eqb_sym id' id), <- E. destruct (wId r =? id') eqn:E'; auto.
  - destruct (getWrkRgn l id) as [p'|] eqn:G; cbn in H; [|discriminate]. inversion H; subst. cbn in Hr.
    cbn [upd find]. rewrite (IH p' eq_refl Hr id'). destruct (wId a =? id') eqn:E'; auto.
    destruct (id' =? id) eqn:E''; auto. apply Nat.eqb_eq in E', E''. apply Nat.eqb_neq in E. congruence.
Qed.

Lemma find_known l id : In id (map wId l) <-> exists r, find (fun r => wId r =? id) l = Some r.
Proof.
  induction l as [|a l IH]; cbn [map In find]; [split; [tauto | intros (r & H); discriminate]|].
  destruct (wId a =? id) eqn:E.
  - apply Nat.eqb_eq in E. split; eauto.
  - apply Nat.eqb_neq in E. rewrite <- IH. tauto.
Qed.

Lemma find_insert l p x id : find (fun r => wId r =? id) (insert l p x) =
  match find (fun r => wId r =? id) (firstn p l) with
  | Some r => Some r
  | None => if wId x =? id then Some x else find (fun r => wId r =? id) (skipn p l)
  end.
Proof.
  unfold insert. induction (firstn p l) as [|a f IH]; cbn [app find]; auto. destruct (wId a =? id); auto.
Qed.

Lemma find_split l p id : find (fun r => wId r =? id) l =
  match find (fun r => wId r =? id) (firstn p l) with Some r => Some r | None => find (fun r => wId r =? id) (skipn p l) end.
Proof.
  rewrite <- (firstn_skipn p l) at 1. induction (firstn p l) as [|a f IH]; cbn [app find]; auto. destruct (wId a =? id); auto.
Qed.

Lemma setAll_st nw v st st' : length st = nw ->
  for_ 0 nw (fun w st =>
    o <- rd st w ;; _ <- check (status_eqb v RDY && (status_eqb o FIN || status_eqb o WAI)) ;; wr st w v) st = Ok st' ->
  length st' = nw /\ forall w, w < nw -> v = RDY /\ (nth_error st w = Some WAI \/ nth_error st w = Some FIN) /\ nth_error st' w = Some RDY.
Proof.
  intros L H.
  assert (G : length st' = nw /\ forall w, (w < nw -> v = RDY /\ (nth_error st w = Some WAI \/ nth_error st w = Some FIN) /\ nth_error st' w = Some RDY)
              /\ (nw <= w -> nth_error st' w = nth_error st w)).
  { apply (for_inv (fun k x => length x = nw /\ forall w,
       (w < k -> v = RDY /\ (nth_error st w = Some WAI \/ nth_error st w = Some FIN) /\ nth_error x w = Some RDY)
       /\ (k <= w -> nth_error x w = nth_error st w)) 0 nw _ st st' (Nat.le_0_l nw) H); [split; auto; intros w; split; auto; lia|].
    intros k x x' Hk (Lx & Hx) E.
    destruct (rd x k) as [o|] eqn:Eo; [|discriminate]. cbn in E. apply rd_inv in Eo.
    destruct (status_eqb v RDY && (status_eqb o FIN || status_eqb o WAI)) eqn:Ec; [|discriminate]. cbn in E.
    apply wr_inv in E. destruct E as (_ & E). subst x'.
    apply andb_prop in Ec. destruct Ec as [Ev Eo'].
    assert (v = RDY) by (destruct v; auto; discriminate). subst v.
    split; [rewrite length_upd; auto|]. intros w. destruct (Hx w) as [Hx1 Hx2]. split; intros Hw.
    - destruct (Nat.eq_dec w k) as [->|Ne].
      + rewrite nth_error_upd_eq by lia. rewrite <- Hx2 by lia. rewrite Eo. destruct o; try discriminate; auto.
      + rewrite nth_error_upd_ne by auto. apply Hx1. lia.
    - rewrite nth_error_upd_ne by lia. apply Hx2. lia. }
  destruct G as [G1 G2]. split; auto. intros w Hw. apply G2; auto.
Qed.

(** Every operation which succeeds treats the status of every package as its life cycle demands: ready from waiting or finished,
    in progress from ready, finished from in progress, and leaves all other packages alone. *)
Theorem C50_life_cycle O nw o s s' : full nw s -> apply O nw o s = Ok s' ->
  full nw s' /\ forall id w, w < nw -> legal O nw o s id w (statusOf s id w) (statusOf s' id w).
Proof.
  intros F H. destruct o as [a|v id'|v id' w'|v|el]; cbn [apply] in H.
  - unfold regWrkRgn in H. apply bind_ok in H. destruct H as (r & _ & H). apply bind_ok in H. destruct H as (_ & _ & H).
    inversion H; subst; clear H. set (x := mkWrgn _ _ _ _ _). split.
    + unfold full, insert in *. cbn [rgns]. rewrite <- (firstn_skipn (regPos (rgns s) (aPrio a)) (rgns s)) in F.
      apply Forall_app in F. destruct F as [F1 F2]. apply Forall_app. split; auto. constructor; auto. cbn. apply repeat_length.
    + intros id w Hw. cbn [legal]. unfold statusOf, known. cbn [rgns]. rewrite find_insert. set (p := regPos _ _).
      rewrite (find_split (rgns s) p id). cbn [wId].
      assert (W : nth_error (repeat WAI nw) w = Some WAI) by (rewrite nth_error_repeat; auto).
      rewrite (Nat.eqb_sym id (aId a)).
      destruct (find (fun r0 => wId r0 =? id) (firstn p (rgns s))) as [r1|] eqn:E1.
      * destruct (aId a =? id) eqn:E; auto. split; auto. intros Hn. exfalso. apply Hn. apply find_known.
        exists r1. rewrite (find_split (rgns s) p id), E1. auto.
      * subst x. cbn [wId]. destruct (aId a =? id) eqn:E; auto.
  - unfold setStatusAll in H. apply bind_ok in H. destruct H as (p & Hp & H). apply bind_ok in H. destruct H as (r & Hr & H).
    apply bind_ok in H. destruct H as (st & Hst & H). inversion H; subst; clear H. apply rd_inv in Hr.
    destruct (getWrkRgn_find _ _ _ Hp) as (r0 & A & B & C & _). assert (r0 = r) by congruence. subst r0.
    assert (Lr : length (wStat r) = nw) by (unfold full in F; rewrite Forall_forall in F; apply F; eapply nth_error_In; eauto).
    destruct (setAll_st _ _ _ _ Lr Hst) as [L1 L2]. split.
    + unfold full, setStat. cbn [rgns]. apply Forall_forall. intros x Hx. apply In_nth_error in Hx. destruct Hx as [q Hq].
      destruct (Nat.eq_dec q p) as [->|Ne].
      * rewrite nth_error_upd_eq in Hq by (apply nth_error_Some; congruence). inversion Hq; subst. auto.
      * rewrite nth_error_upd_ne in Hq by auto. unfold full in F. rewrite Forall_forall in F. apply F. eapply nth_error_In; eauto.
    + intros id w Hw. unfold statusOf, setStat, legal. cbn [rgns]. rewrite (find_upd _ _ _ _ st Hp A).
      destruct (id =? id') eqn:E; auto. apply Nat.eqb_eq in E. subst id. rewrite C. cbn [wStat]. auto.
  - unfold setStatusTd in H. apply bind_ok in H. destruct H as (p & Hp & H). apply bind_ok in H. destruct H as (r & Hr & H).
    apply bind_ok in H. destruct H as (o & Ho & H). apply bind_ok in H. destruct H as (u & Hc & H).
    apply bind_ok in H. destruct H as (st & Hst & H). inversion H; subst; clear H. apply rd_inv in Hr, Ho.
    apply wr_inv in Hst. destruct Hst as (Lw & ->).
    destruct (getWrkRgn_find _ _ _ Hp) as (r0 & A & B & C & _). assert (r0 = r) by congruence. subst r0.
    assert (Lr : length (wStat r) = nw) by (unfold full in F; rewrite Forall_forall in F; apply F; eapply nth_error_In; eauto).
    split.
    + unfold full, setStat. cbn [rgns]. apply Forall_forall. intros x Hx. apply In_nth_error in Hx. destruct Hx as [q Hq].
      destruct (Nat.eq_dec q p) as [->|Ne].
      * rewrite nth_error_upd_eq in Hq by (apply nth_error_Some; congruence). inversion Hq; subst. cbn. rewrite length_upd; auto.
      * rewrite nth_error_upd_ne in Hq by auto. unfold full in F. rewrite Forall_forall in F. apply F. eapply nth_error_In; eauto.
    + intros id w Hw. unfold statusOf, setStat, legal. cbn [rgns]. rewrite (find_upd _ _ _ _ _ Hp A).
      destruct (id =? id') eqn:E; [|reflexivity]. apply Nat.eqb_eq in E. subst id. rewrite C. cbn [wStat andb].
      destruct (w =? w') eqn:Ew.
      * apply Nat.eqb_eq in Ew. subst w'. rewrite nth_error_upd_eq by auto. rewrite Ho.
        destruct v; try discriminate; destruct o; try discriminate; auto.
      * apply Nat.eqb_neq in Ew. rewrite nth_error_upd_ne; auto.
  - unfold resetStatus in H. inversion H; subst; clear H. split.
    + unfold full. cbn [rgns]. apply Forall_forall. intros x Hx. apply in_map_iff in Hx. destruct Hx as (r & <- & _).
      cbn. apply repeat_length.
    + intros id w Hw. cbn [legal]. unfold known, statusOf. cbn [rgns]. intros K.
      induction (rgns s) as [|a l IH]; cbn [map In] in K; [tauto|]. cbn [map find wId].
      destruct (wId a =? id) eqn:E; [cbn [wStat]; rewrite nth_error_repeat; auto|].
      apply IH. apply Nat.eqb_neq in E. destruct K as [K|K]; [congruence|auto].
  - unfold balance in H. apply bind_ok in H. destruct H as (l & _ & H). inversion H; subst. split; [exact F|].
    intros id w _. cbn [legal]. reflexivity.
Qed.
Print Assumptions C50_life_cycle.

(** a run of two workers: registration, ready, start and finish of one package; a second start fails *)
Section Example.
Let O : fops := mkFops nat 0 3343 0 0 1 0 Nat.min Nat.max Nat.add Nat.sub Nat.mul Nat.div Nat.ltb Nat.eqb (fun n => n) (fun n => n).
Let reg := OReg O (mkReg 0 0 7 0 4 0%Z [] (repeat 0%N 4)).
Example C50_ex_run : exists s, run O 2 [reg; OSetAll O RDY 7; OSetTd O IPR 7 1; OSetTd O FIN 7 1] shared0 = Ok s
  /\ full 2 s /\ statusOf s 7 0 = Some RDY /\ statusOf s 7 1 = Some FIN.
Proof. eexists. split; [vm_compute; reflexivity|]. repeat split; repeat constructor. Qed.
Example C50_ex_abort : run O 2 [reg; OSetAll O RDY 7; OSetTd O FIN 7 1] shared0 = Er Echeck.
Proof. reflexivity. Qed.
End Example.
