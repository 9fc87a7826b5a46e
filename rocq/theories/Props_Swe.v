(** Property C08: the shallow-water scheduler, any number of workers and any interleaving. *)
From Verif Require Import Util SchedModel SchedProofs SchedSwe.

Section Swe.
Context {V W : Type}.
Variable nusP : nat -> list V -> W.
Variable updP : nat -> nat -> list W -> V -> V.
Variables (nw N : nat).
Notation sst := (@sst V W).
Notation reach := (sreach nusP updP nw N).
Notation step := (sstep nusP updP nw N).

(* ------------------------------------------------------------------ *)
(** * Specification: the sequential finite volume scheme *)

(** net-updates of all faces, from the DOFs *)
Definition all_nets (d : list V) : list W := map (fun w => nusP w d) (seq 0 nw).
(** one time step: all net-updates, then all elements *)
Definition seq_step (n : nat) (d : list V) : list V :=
  map (fun wv => updP (fst wv) n (all_nets d) (snd wv)) (combine (seq 0 (length d)) d).
(** DOFs after [k] time steps *)
Fixpoint seq_run (k : nat) (d : list V) : list V :=
  match k with 0 => d | S k => seq_step k (seq_run k d) end.

Definition scomputing (s : sst) (w r : nat) : Prop := scur s w = SBusy r.

(* ------------------------------------------------------------------ *)
(** * Invariant *)

Lemma nth_seq_step n d w : nth_error (seq_step n d) w = option_map (updP w n (all_nets d)) (nth_error d w).
Proof.
  unfold seq_step. rewrite nth_error_map.
  assert (G : forall (d : list V) a i, nth_error (combine (seq a (length d)) d) i = option_map (fun v => (a + i, v)) (nth_error d i)).
  { clear. induction d as [|x d IH]; intros a i; [now destruct i|]. cbn [length seq combine].
    destruct i as [|i]; cbn [nth_error option_map]; [now rewrite Nat.add_0_r|]. rewrite IH. now rewrite Nat.add_succ_r. }
  rewrite G. cbn. now destruct (nth_error d w).
Qed.
Lemma length_seq_step n d : length (seq_step n d) = length d.
Proof. unfold seq_step. rewrite map_length, combine_length, seq_length. lia. Qed.
Lemma length_seq_run k d : length (seq_run k d) = length d.
Proof. induction k; cbn; auto. now rewrite length_seq_step. Qed.
Lemma nth_all_nets d w : w < nw -> nth_error (all_nets d) w = Some (nusP w d).
Proof. intros H. unfold all_nets. rewrite nth_error_map, nth_error_seq by auto. reflexivity. Qed.

(** package [w] of region 0 / 1 while the region is being worked on *)
Definition P0 (D : list V) (s : sst) (w : nat) : Prop :=
  match sstat s 0 w with
  | RDY | IPR => sexe s 0 w = sn s
  | FIN => sexe s 0 w = sn s + 1 /\ nth_error (nets s) w = Some (nusP w D)
  | WAI => False
  end.
Definition P1 (D : list V) (s : sst) (w : nat) : Prop :=
  match sstat s 1 w with
  | RDY | IPR => sexe s 1 w = sn s /\ nth_error (dofs s) w = nth_error D w
  | FIN => sexe s 1 w = sn s + 1 /\ nth_error (dofs s) w = nth_error (seq_step (sn s) D) w
  | WAI => False
  end.
Definition quiet (s : sst) (r x : nat) : Prop :=
  forall w, w < nw -> (sstat s r w = FIN \/ sstat s r w = WAI) /\ sexe s r w = x.

Definition Ph (d0 : list V) (s : sst) : Prop :=
  let n := sn s in let D := seq_run n d0 in
  (c0 s = 9 /\ c1 s = 9 /\ n = 0 /\ 0 < N /\ dofs s = D /\ quiet s 0 0 /\ quiet s 1 0) \/
  (c0 s = 1 /\ c1 s = 0 /\ n < N /\ dofs s = D /\ (forall w, w < nw -> P0 D s w) /\ quiet s 1 n) \/
  (c0 s = 2 /\ c1 s = 0 /\ n < N /\ dofs s = D /\ nets s = all_nets D /\ quiet s 0 (n + 1) /\ quiet s 1 n) \/
  (c0 s = 0 /\ c1 s = 1 /\ n < N /\ (forall w, w < nw -> P1 D s w) /\ nets s = all_nets D /\ quiet s 0 (n + 1)) \/
  (c0 s = 0 /\ c1 s = 2 /\ n < N /\ dofs s = seq_run (n + 1) d0 /\ nets s = all_nets D /\ quiet s 0 (n + 1) /\ quiet s 1 (n + 1)) \/
  (c0 s = 0 /\ c1 s = 0 /\ n = N /\ dofs s = D /\ quiet s 0 n /\ quiet s 1 n).

Definition SCur (s : sst) : Prop :=
  (forall w r, scur s w = SGot r -> sstat s r w = RDY /\ w < nw /\ r < 2) /\
  (forall w r, scur s w = SBusy r -> sstat s r w = IPR /\ w < nw /\ r < 2) /\
  (forall r w, sstat s r w = IPR -> scur s w = SBusy r).

Definition SInv (d0 : list V) (s : sst) : Prop :=
  length d0 = nw /\ length (dofs s) = nw /\ length (nets s) = nw /\ spc s < 6 /\
  (sfin s = true -> sn s = N) /\ SCur s /\ Ph d0 s.

Lemma sallFin_spec (s : sst) r : sallFin nw s r = true -> forall w, w < nw -> sstat s r w = FIN.
Proof. unfold sallFin. rewrite forallb_forall. intros H w Hw. apply status_eqb_iff, H, in_seq. lia. Qed.
Lemma srdy_ok (s : sst) r x : quiet s r x -> srdyAllowed nw s r = true.
Proof.
  intros Q. unfold srdyAllowed. apply forallb_forall. intros w Hw. apply in_seq in Hw. destruct (Q w ltac:(lia)) as [[-> | ->] _]; reflexivity.
Qed.

Lemma SCur_rdy (s : sst) r x n a b : SCur s -> quiet s r x -> r < 2 ->
  SCur (mkSst n a b (fun r' w' => if (r' =? r) && (w' <? nw) then RDY else sstat s r' w')
              (scur s) (sexe s) (dofs s) (nets s) (spc s) (sfin s)).
Proof.
  intros (J1 & J2 & J3) Q Hr. split; [|split]; cbn.
  - intros w r' H. destruct (J1 _ _ H) as (A & B & C). repeat split; auto. destruct (_ && _); auto.
  - intros w r' H. destruct (J2 _ _ H) as (A & B & C). repeat split; auto.
    destruct (Nat.eqb_spec r' r) as [->|]; cbn [andb]; auto. destruct (Q w B) as [[E|E] _]; congruence.
  - intros r' w H. apply J3. destruct (_ && _); [discriminate|exact H].
Qed.

Lemma list_eq_nth {A} (l l' : list A) : length l = nw -> length l' = nw ->
  (forall w, w < nw -> nth_error l w = nth_error l' w) -> l = l'.
Proof.
  intros L1 L2 H. apply nth_error_ext'. intros w. destruct (Nat.ltb_spec w nw); auto.
  rewrite (proj2 (nth_error_None l w)), (proj2 (nth_error_None l' w)); auto; lia.
Qed.

Lemma sinit_inv d0 f : length d0 = nw -> 0 < N -> length f = nw -> SInv d0 (sinit d0 f).
Proof.
  intros H1 H2 H3. repeat apply conj; cbn; auto; try lia; try discriminate.
  left. unfold quiet. cbn. repeat split; auto.
Qed.

Ltac sc := unfold Ph; cbn [sn c0 c1 sstat scur sexe dofs nets spc sfin sctl spos Nat.eqb andb].

Lemma sched_inv d0 (s : sst) : SInv d0 s -> match ssched nw N s with SNext s' => SInv d0 s' | SStuck => sfin s = true | SFail => False end.
Proof.
  intros (L0 & L1 & L2 & LP & LF & LC & PH). unfold ssched. destruct (sfin s) eqn:F; [reflexivity|].
  assert (GO : forall s', length (dofs s') = nw -> length (nets s') = nw -> (sfin s' = true -> sn s' = N) -> SCur s' -> Ph d0 s' ->
     SInv d0 (spos s' (if spc s =? 5 then 0 else S (spc s)))).
  { intros s' G1 G2 G3 G4 G5. unfold SInv. repeat (split; [assumption|]). split; [|split; [exact G3|split; [exact G4|exact G5]]].
    cbn. destruct (Nat.eqb_spec (spc s) 5); lia. }
  assert (KEEP : SInv d0 (spos s (if spc s =? 5 then 0 else S (spc s)))) by (apply GO; auto; congruence).
  destruct (spc s) as [|[|[|[|[|p]]]]] eqn:EP; cbn [sblk].
  - destruct (Nat.eqb_spec (c0 s) 9) as [E|]; [|exact KEEP].
    destruct PH as [PH|[PH|[PH|[PH|[PH|PH]]]]]; try (exfalso; lia). destruct PH as (_ & _ & A3 & A4 & A5 & A6 & A7).
    unfold srdy. rewrite (srdy_ok _ _ _ A6). apply GO; sc; auto; [congruence|apply SCur_rdy with (x := 0); auto|].
    right; left. sc. repeat split; auto; try lia.
    + intros w Hw. unfold P0. cbn [sstat sexe sn nets dofs Nat.eqb andb]. replace (w <? nw) with true by lia. destruct (A6 w Hw). lia.
    + destruct (A7 w H). auto.
    + destruct (A7 w H). cbn; lia.
  - destruct ((c0 s =? 1) && sallFin nw s 0) eqn:B; [|exact KEEP]. apply andb_prop in B as [B1 B2]. apply Nat.eqb_eq in B1.
    pose proof (sallFin_spec _ _ B2) as AF.
    destruct PH as [PH|[PH|[PH|[PH|[PH|PH]]]]]; try (exfalso; lia). destruct PH as (_ & A2 & A3 & A4 & A5 & A6).
    apply GO; auto; [cbn; congruence|].
    right; right; left. cbn [c0 c1 sn sctl dofs nets]. repeat (split; [assumption || reflexivity|]). repeat split; auto.
    + apply list_eq_nth; auto; [unfold all_nets; now rewrite map_length, seq_length|].
      intros w Hw. specialize (A5 w Hw). unfold P0 in A5. rewrite AF in A5 by auto. rewrite nth_all_nets by auto. tauto.
    + left. apply AF. auto.
    + specialize (A5 w H). unfold P0 in A5. rewrite AF in A5 by auto. cbn. tauto.
    + destruct (A6 w H). auto.
    + destruct (A6 w H). auto.
  - destruct ((c1 s =? 1) && sallFin nw s 1) eqn:B; [|exact KEEP]. apply andb_prop in B as [B1 B2]. apply Nat.eqb_eq in B1.
    pose proof (sallFin_spec _ _ B2) as AF.
    destruct PH as [PH|[PH|[PH|[PH|[PH|PH]]]]]; try (exfalso; lia). destruct PH as (A1 & _ & A3 & A4 & A5 & A6).
    apply GO; auto; [cbn; congruence|].
    right; right; right; right; left. cbn [c0 c1 sn sctl dofs nets]. repeat (split; [assumption || reflexivity|]). repeat split; auto.
    + replace (sn s + 1) with (S (sn s)) by lia. cbn [seq_run].
      apply list_eq_nth; auto; [now rewrite length_seq_step, length_seq_run|].
      intros w Hw. specialize (A4 w Hw). unfold P1 in A4. rewrite AF in A4 by auto. tauto.
    + destruct (A6 w H). auto.
    + destruct (A6 w H). auto.
    + left. apply AF. auto.
    + specialize (A4 w H). unfold P1 in A4. rewrite AF in A4 by auto. cbn. tauto.
  - destruct (Nat.eqb_spec (sn s) N) as [E|]; [|exact KEEP]. apply GO; auto.
  - destruct ((c0 s =? 2) && (c1 s =? 0)) eqn:B; [|exact KEEP]. apply andb_prop in B as [B1 B2]. apply Nat.eqb_eq in B1, B2.
    destruct PH as [PH|[PH|[PH|[PH|[PH|PH]]]]]; try (exfalso; lia). destruct PH as (_ & _ & A3 & A4 & A5 & A6 & A7).
    unfold srdy. rewrite (srdy_ok _ _ _ A7). apply GO; sc; auto; [congruence|apply SCur_rdy with (x := sn s); auto|].
    right; right; right; left. sc. repeat (split; [assumption || reflexivity|]). repeat split; auto.
    + intros w Hw. unfold P1. cbn [sstat sexe sn nets dofs Nat.eqb andb]. replace (w <? nw) with true by lia. destruct (A7 w Hw). rewrite A4. auto.
    + destruct (A6 w H). auto.
    + destruct (A6 w H). auto.
  - assert (p = 0) as -> by lia.
    destruct ((c1 s =? 2) && (c0 s =? 0)) eqn:B; [|exact KEEP]. apply andb_prop in B as [B1 B2]. apply Nat.eqb_eq in B1, B2.
    destruct PH as [PH|[PH|[PH|[PH|[PH|PH]]]]]; try (exfalso; lia). destruct PH as (_ & _ & A3 & A4 & A5 & A6 & A7).
    destruct (Nat.eqb_spec (S (sn s)) N) as [E|E]; cbn [negb].
    + apply GO; auto. do 5 right. sc. repeat (split; [assumption || reflexivity|]).
      replace (sn s + 1) with (S (sn s)) in * by lia. repeat split; auto; try (destruct (A6 w H); now auto); destruct (A7 w H); now auto.
    + unfold srdy. rewrite (srdy_ok _ _ _ A6). apply GO; sc; auto; [congruence|apply SCur_rdy with (x := sn s + 1); auto|].
      right; left. sc. replace (sn s + 1) with (S (sn s)) in * by lia. repeat (split; [assumption || reflexivity || lia|]).
      split; [|intros w Hw; destruct (A7 w Hw); cbn; auto].
      intros w Hw. unfold P0. cbn [sstat sexe sn nets dofs Nat.eqb andb]. replace (w <? nw) with true by lia. destruct (A6 w Hw). auto.
Qed.

Lemma get_inv d0 w r (s : sst) : SInv d0 s -> match sget nw w r s with SNext s' => SInv d0 s' | SStuck => True | SFail => False end.
Proof.
  intros (L0 & L1 & L2 & LP & LF & LC & PH). unfold sget.
  destruct (negb _) eqn:B; [exact Logic.I|]. apply negb_false_iff in B. apply andb_prop in B as [B1 B2].
  apply Nat.ltb_lt in B1, B2.
  destruct (scur s w) eqn:C; try exact Logic.I. destruct (status_eqb _ _) eqn:E; [|exact Logic.I]. apply status_eqb_iff in E.
  repeat (split; [assumption|]). split; [|exact PH].
  destruct LC as (J1 & J2 & J3). split; [|split]; cbn.
  - intros w' r' H. unfold fset in H. destruct (Nat.eqb_spec w' w) as [->|]; [|auto]. injection H as <-. auto.
  - intros w' r' H. unfold fset in H. destruct (Nat.eqb_spec w' w) as [->|]; [discriminate|auto].
  - intros r' w' H. unfold fset. destruct (Nat.eqb_spec w' w) as [->|]; [|auto]. apply J3 in H. congruence.
Qed.

Lemma sset_spec f r w v r' w' : sset f r w v r' w' = if (r' =? r) && (w' =? w) then v else f r' w'.
Proof. reflexivity. Qed.

Lemma active d0 (s : sst) r w : SInv d0 s -> w < nw -> r < 2 -> sstat s r w = RDY \/ sstat s r w = IPR ->
  if r =? 0 then c0 s = 1 else c1 s = 1.
Proof.
  intros (L0 & L1 & L2 & LP & LF & LC & PH) Hw Hr S.
  assert (NQ : forall x, quiet s r x -> False) by (intros x Q; destruct (Q w Hw) as [[E|E] _]; destruct S; congruence).
  destruct r as [|[|r]]; [| |lia]; cbn; destruct PH as [PH|[PH|[PH|[PH|[PH|PH]]]]]; try tauto; exfalso; eapply NQ; apply PH.
Qed.

Lemma start_inv d0 w (s : sst) : SInv d0 s -> match sstart w s with SNext s' => SInv d0 s' | SStuck => True | SFail => False end.
Proof.
  intros HI. pose proof HI as (L0 & L1 & L2 & LP & LF & LC & PH). unfold sstart.
  destruct (scur s w) as [|r|r] eqn:C; try exact Logic.I.
  destruct LC as (J1 & J2 & J3). destruct (J1 _ _ C) as (E & Hw & Hr). rewrite E. cbn [status_eqb negb].
  pose proof (active _ _ _ _ HI Hw Hr (or_introl E)) as AC.
  repeat (split; [assumption|]). split.
  - split; [|split]; cbn.
    + intros w' r' H. unfold fset in H. destruct (Nat.eqb_spec w' w) as [->|]; [discriminate|]. unfold sset.
      destruct (Nat.eqb_spec w' w); [lia|]. rewrite andb_false_r. auto.
    + intros w' r' H. unfold fset in H. destruct (Nat.eqb_spec w' w) as [->|].
      * injection H as <-. unfold sset. rewrite !Nat.eqb_refl. auto.
      * unfold sset. destruct (Nat.eqb_spec w' w); [lia|]. rewrite andb_false_r. auto.
    + intros r' w' H. unfold sset in H. unfold fset. destruct (Nat.eqb_spec w' w) as [Ew|]; [subst w'|].
      * destruct (Nat.eqb_spec r' r) as [Er|]; [subst r'; auto|]. cbn [andb] in H. apply J3 in H. congruence.
      * rewrite andb_false_r in H. auto.
  - unfold Ph in *. cbn [c0 c1 sn dofs nets].
    assert (QO : forall r' x, r' <> r -> quiet s r' x ->
      quiet (mkSst (sn s) (c0 s) (c1 s) (sset (sstat s) r w IPR) (fset (scur s) w (SBusy r)) (sexe s) (dofs s) (nets s) (spc s) (sfin s)) r' x).
    { intros r' x Hn Q w' Hw'. cbn. unfold sset. destruct (Nat.eqb_spec r' r); [contradiction|]. apply Q, Hw'. }
    destruct r as [|[|r]]; [| |lia]; cbn in AC.
    + destruct PH as [PH|[PH|[PH|[PH|[PH|PH]]]]]; try (exfalso; lia). destruct PH as (A1 & A2 & A3 & A4 & A5 & A6).
      right; left. repeat (split; [assumption|]). split; [|apply QO; auto].
      intros w' Hw'. specialize (A5 w' Hw'). unfold P0 in *. cbn [sstat sexe sn nets dofs]. unfold sset. cbn [Nat.eqb andb].
      destruct (Nat.eqb_spec w' w) as [->|]; auto. rewrite E in A5. exact A5.
    + destruct PH as [PH|[PH|[PH|[PH|[PH|PH]]]]]; try (exfalso; lia). destruct PH as (A1 & A2 & A3 & A4 & A5 & A6).
      right; right; right; left. repeat (split; [assumption|]). split; [|split; [exact A5|apply QO; auto]].
      intros w' Hw'. specialize (A4 w' Hw'). unfold P1 in *. cbn [sstat sexe sn nets dofs]. unfold sset. cbn [Nat.eqb andb].
      destruct (Nat.eqb_spec w' w) as [->|]; auto. rewrite E in A4. exact A4.
Qed.

Lemma done_inv d0 w (s : sst) : SInv d0 s -> match sdone nusP updP w s with SNext s' => SInv d0 s' | SStuck => True | SFail => False end.
Proof.
  intros HI. pose proof HI as (L0 & L1 & L2 & LP & LF & LC & PH). unfold sdone.
  destruct (scur s w) as [|r|r] eqn:C; try exact Logic.I.
  destruct LC as (J1 & J2 & J3). destruct (J2 _ _ C) as (E & Hw & Hr). rewrite E. cbn [status_eqb negb].
  pose proof (active _ _ _ _ HI Hw Hr (or_intror E)) as AC.
  set (ex := fun r' w' => if (r' =? r) && (w' =? w) then S (sexe s r w) else sexe s r' w').
  assert (CU : forall dd nn, SCur (mkSst (sn s) (c0 s) (c1 s) (sset (sstat s) r w FIN) (fset (scur s) w SIdle) ex dd nn (spc s) (sfin s))).
  { intros dd nn. split; [|split]; cbn.
    - intros w' r' H. unfold fset in H. destruct (Nat.eqb_spec w' w) as [->|]; [discriminate|]. unfold sset.
      destruct (Nat.eqb_spec w' w); [lia|]. rewrite andb_false_r. auto.
    - intros w' r' H. unfold fset in H. destruct (Nat.eqb_spec w' w) as [->|]; [discriminate|]. unfold sset.
      destruct (Nat.eqb_spec w' w); [lia|]. rewrite andb_false_r. auto.
    - intros r' w' H. unfold sset in H. unfold fset. destruct (Nat.eqb_spec w' w) as [Ew|]; [subst w'|].
      + destruct (Nat.eqb_spec r' r) as [Er|]; cbn [andb] in H; [discriminate|]. apply J3 in H. congruence.
      + rewrite andb_false_r in H. auto. }
  assert (QO : forall r' x dd nn, r' <> r -> quiet s r' x ->
      quiet (mkSst (sn s) (c0 s) (c1 s) (sset (sstat s) r w FIN) (fset (scur s) w SIdle) ex dd nn (spc s) (sfin s)) r' x).
  { intros r' x dd nn Hn Q w' Hw'. cbn. unfold sset, ex. destruct (Nat.eqb_spec r' r); [contradiction|]. apply Q, Hw'. }
  destruct r as [|[|r]]; [| |lia]; cbn in AC; cbn [Nat.eqb].
  - repeat (split; [cbn; rewrite ?length_upd; assumption|]). split; [apply CU|].
    unfold Ph in *. cbn [c0 c1 sn dofs nets].
    destruct PH as [PH|[PH|[PH|[PH|[PH|PH]]]]]; try (exfalso; lia). destruct PH as (A1 & A2 & A3 & A4 & A5 & A6).
    right; left. repeat (split; [assumption|]). split; [|apply QO; auto].
    intros w' Hw'. specialize (A5 w' Hw'). unfold P0 in *. cbn [sstat sexe sn nets dofs]. unfold sset, ex. cbn [Nat.eqb andb].
    destruct (Nat.eqb_spec w' w) as [->|].
    + rewrite E in A5. rewrite A5, nth_error_upd_eq by lia. split; [lia|]. now rewrite A4.
    + rewrite nth_error_upd_ne by lia. exact A5.
  - assert (LD : length (match nth_error (dofs s) w with Some v => upd (dofs s) w (updP w (sn s) (nets s) v) | None => dofs s end) = nw).
    { destruct (nth_error _ _); rewrite ?length_upd; auto. }
    repeat (split; [assumption|]). split; [apply CU|].
    unfold Ph in *. cbn [c0 c1 sn dofs nets].
    destruct PH as [PH|[PH|[PH|[PH|[PH|PH]]]]]; try (exfalso; lia). destruct PH as (A1 & A2 & A3 & A4 & A5 & A6).
    right; right; right; left. repeat (split; [assumption|]). split; [|split; [exact A5|apply QO; auto]].
    intros w' Hw'. pose proof (A4 w' Hw') as A4'. unfold P1 in *. cbn [sstat sexe sn nets dofs]. unfold sset, ex. cbn [Nat.eqb andb].
    destruct (nth_error (dofs s) w) as [v|] eqn:ED; [|apply nth_error_None in ED; lia].
    destruct (Nat.eqb_spec w' w) as [->|].
    + rewrite E in A4'. destruct A4' as [B1 B2]. rewrite nth_error_upd_eq by lia. split; [lia|].
      rewrite nth_seq_step, <- B2, ED. cbn. now rewrite A5.
    + rewrite nth_error_upd_ne by lia. exact A4'.
Qed.

Lemma step_inv d0 s l : SInv d0 s -> match step s l with SNext s' => SInv d0 s' | SStuck => True | SFail => False end.
Proof.
  intros HI. destruct l as [|w r|w|w]; cbn [sstep].
  - pose proof (sched_inv _ _ HI). destruct (ssched nw N s); auto.
  - apply get_inv, HI.
  - apply start_inv, HI.
  - apply done_inv, HI.
Qed.

Lemma reach_inv d0 s : length d0 = nw -> 0 < N -> reach d0 s -> SInv d0 s.
Proof.
  intros H0 HN. induction 1 as [f Hf|s l s' R IH E]; [now apply sinit_inv|].
  pose proof (step_inv d0 s l IH) as H. now rewrite E in H.
Qed.

(* ------------------------------------------------------------------ *)
(** * C08 *)

(** The result of an interval is that of the sequential scheme after exactly the required number of steps, for any kernels,
    any number of workers and any interleaving; every package of both regions has been executed once per step. *)
Theorem C08_result d0 s : length d0 = nw -> 0 < N -> reach d0 s -> sfin s = true ->
  sn s = N /\ dofs s = seq_run N d0 /\ forall r w, r < 2 -> w < nw -> sexe s r w = N.
Proof.
  intros H0 HN R F. destruct (reach_inv _ _ H0 HN R) as (L0 & L1 & L2 & LP & LF & LC & PH). specialize (LF F).
  unfold Ph in PH. cbv zeta in PH. destruct PH as [PH|[PH|[PH|[PH|[PH|PH]]]]]; try (exfalso; lia).
  destruct PH as (_ & _ & _ & A & Q0 & Q1). rewrite LF in *. split; [auto|]. split; [auto|].
  intros r w Hr Hw. destruct r as [|[|r]]; [apply Q0, Hw|apply Q1, Hw|lia].
Qed.

(** While net-updates of step [n] are computed, all element updates of the previous steps are complete and no element update
    is ready or in progress; while element updates of step [n] are computed, all net-updates of this step are complete
    and no computation of net-updates is ready or in progress. *)
Theorem C08_alternation d0 s w r : length d0 = nw -> 0 < N -> reach d0 s -> scomputing s w r ->
  w < nw /\ r < 2 /\ sn s < N /\ sexe s r w = sn s /\
  forall w', w' < nw ->
    sexe s (1 - r) w' = sn s + r /\ sstat s (1 - r) w' <> RDY /\ sstat s (1 - r) w' <> IPR /\ ~ scomputing s w' (1 - r).
Proof.
  intros H0 HN R C. pose proof (reach_inv _ _ H0 HN R) as HI. pose proof HI as (L0 & L1 & L2 & LP & LF & LC & PH).
  destruct LC as (J1 & J2 & J3). destruct (J2 _ _ C) as (E & Hw & Hr).
  pose proof (active _ _ _ _ HI Hw Hr (or_intror E)) as AC.
  assert (QC : forall r' x w', quiet s r' x -> w' < nw ->
    sexe s r' w' = x /\ sstat s r' w' <> RDY /\ sstat s r' w' <> IPR /\ ~ scomputing s w' r').
  { intros r' x w' Q Hw'. destruct (Q w' Hw') as [Q1 Q2]. split; auto.
    assert (sstat s r' w' <> IPR) by (destruct Q1 as [-> | ->]; discriminate).
    repeat split; auto; [destruct Q1 as [-> | ->]; discriminate|]. intros K. destruct (J2 _ _ K). contradiction. }
  unfold Ph in PH. cbv zeta in PH. destruct r as [|[|r]]; [| |lia]; cbn in AC.
  - destruct PH as [PH|[PH|[PH|[PH|[PH|PH]]]]]; try (exfalso; lia). destruct PH as (A1 & A2 & A3 & A4 & A5 & A6).
    specialize (A5 w Hw). unfold P0 in A5. rewrite E in A5. repeat (split; [assumption|]).
    intros w' Hw'. rewrite Nat.add_0_r. now apply QC.
  - destruct PH as [PH|[PH|[PH|[PH|[PH|PH]]]]]; try (exfalso; lia). destruct PH as (A1 & A2 & A3 & A4 & A5 & A6).
    specialize (A4 w Hw). unfold P1 in A4. rewrite E in A4. destruct A4. repeat (split; [assumption|]).
    intros w' Hw'. now apply QC.
Qed.

(** What a package reads does not change while it is computed, whatever any thread does. *)
Theorem C08_inputs_stable d0 s w r l s' : length d0 = nw -> 0 < N -> reach d0 s -> scomputing s w r -> step s l = SNext s' ->
  sn s' = sn s /\
  (r = 0 -> dofs s' = dofs s) /\
  (r = 1 -> nets s' = nets s /\ (l <> SLDone w -> nth_error (dofs s') w = nth_error (dofs s) w)).
Proof.
  intros H0 HN R C E. pose proof (reach_inv _ _ H0 HN R) as HI. pose proof HI as (L0 & L1 & L2 & LP & LF & LC & PH).
  destruct (C08_alternation _ _ _ _ H0 HN R C) as (Hw & Hr & Hn & HX & AL).
  destruct LC as (J1 & J2 & J3). pose proof (proj1 (J2 _ _ C)) as ES.
  pose proof (active _ _ _ _ HI Hw Hr (or_intror ES)) as AC.
  destruct l as [|w0 r0|w0|w0]; cbn [sstep] in E.
  - assert (dofs s' = dofs s /\ nets s' = nets s /\ sn s' = sn s) as (-> & -> & ->); [|auto].
    unfold ssched in E. destruct (sfin s); [discriminate|].
    destruct (sblk nw N s (spc s)) as [s1| |] eqn:EB; try discriminate. injection E as <-. cbn.
    destruct (spc s) as [|[|[|[|[|p]]]]]; cbn [sblk] in EB; unfold srdy, sctl in EB.
    + destruct (_ =? _); [|injection EB as <-; auto]. destruct (srdyAllowed _ _ _); [|discriminate]. injection EB as <-. auto.
    + destruct (_ && _); injection EB as <-; auto.
    + destruct (_ && _); injection EB as <-; auto.
    + destruct (_ =? _); injection EB as <-; auto.
    + destruct (_ && _); [|injection EB as <-; auto]. destruct (srdyAllowed _ _ _); [|discriminate]. injection EB as <-. auto.
    + destruct ((c1 s =? 2) && (c0 s =? 0)) eqn:B; [|injection EB as <-; auto]. exfalso.
      apply andb_prop in B as [B1 B2]. apply Nat.eqb_eq in B1, B2. destruct (r =? 0); lia.
  - unfold sget in E. destruct (negb _); [discriminate|]. destruct (scur s w0); try discriminate.
    destruct (status_eqb _ _); [|discriminate]. injection E as <-. auto.
  - unfold sstart in E. destruct (scur s w0); try discriminate. destruct (negb _); [discriminate|]. injection E as <-. auto.
  - unfold sdone in E. destruct (scur s w0) as [|r0|r0] eqn:C0; try discriminate. destruct (negb _); [discriminate|].
    injection E as <-. cbn. split; [reflexivity|].
    destruct (J2 _ _ C0) as (_ & Hw0 & Hr0). destruct (AL w0 Hw0) as (_ & _ & _ & NC).
    assert (r0 = r) as ->.
    { destruct (Nat.eq_dec r0 r); auto. exfalso. apply NC. unfold scomputing. rewrite C0. f_equal. lia. }
    split; intros ->; cbn; auto. split; auto. intros Hl.
    destruct (nth_error (dofs s) w0) as [v|]; auto. rewrite nth_error_upd_ne by congruence. auto.
Qed.

(** No check of the status machine ever fails and the scheduling thread goes on until the end of the interval. *)
Theorem C08_no_abort d0 s l : length d0 = nw -> 0 < N -> reach d0 s ->
  step s l <> SFail /\ (sfin s = false -> exists s', step s SLSched = SNext s').
Proof.
  intros H0 HN R. pose proof (reach_inv _ _ H0 HN R) as HI. split.
  - pose proof (step_inv d0 s l HI) as H. destruct (step s l); [discriminate|discriminate|contradiction].
  - intros F. pose proof (sched_inv d0 s HI) as H. cbn [sstep]. destruct (ssched nw N s); eauto; [congruence|contradiction].
Qed.

End Swe.

(* ------------------------------------------------------------------ *)
(** * Example: two workers, three steps; kernels with integers *)
Definition ex_nus (w : nat) (d : list nat) : nat := list_sum d + w.
Definition ex_upd (w n : nat) (f : list nat) (v : nat) : nat := v + n + list_sum f.

Definition ex_label (s : @sst nat nat) (w : nat) : option slabel :=
  match scur s w with
  | SIdle => if status_eqb (sstat s 0 w) RDY then Some (SLGet w 0) else if status_eqb (sstat s 1 w) RDY then Some (SLGet w 1) else None
  | SGot _ => Some (SLStart w)
  | SBusy _ => Some (SLDone w)
  end.
Definition ex_act (s : sst) (l : option slabel) : sst :=
  match l with
  | Some l => match sstep ex_nus ex_upd 2 3 s l with SNext s' => s' | _ => s end
  | None => s
  end.
Definition ex_round (s : sst) : sst :=
  let s := ex_act s (Some SLSched) in let s := ex_act s (ex_label s 1) in ex_act s (ex_label s 0).

Lemma ex_act_reach d s l : sreach ex_nus ex_upd 2 3 d s -> sreach ex_nus ex_upd 2 3 d (ex_act s l).
Proof.
  intros R. unfold ex_act. destruct l as [l|]; auto.
  destruct (sstep ex_nus ex_upd 2 3 s l) eqn:E; auto. econstructor; eauto.
Qed.
Lemma ex_round_reach d k s : sreach ex_nus ex_upd 2 3 d s -> sreach ex_nus ex_upd 2 3 d (Nat.iter k ex_round s).
Proof. intros R. induction k as [|k IH]; [exact R|]. change (sreach ex_nus ex_upd 2 3 d (ex_round (Nat.iter k ex_round s))). unfold ex_round at 1. cbv zeta. now repeat apply ex_act_reach. Qed.

Example C08_ex : exists s, sreach ex_nus ex_upd 2 3 [1; 2] s /\ sfin s = true /\ dofs s = [225; 226] /\
  seq_run ex_nus ex_upd 2 3 [1; 2] = [225; 226].
Proof.
  exists (Nat.iter 100 ex_round (sinit [1; 2] [0; 0])). split; [|repeat split; vm_compute; reflexivity].
  apply ex_round_reach. now constructor.
Qed.

(** a reachable state in which both workers compute net-updates of the second step *)
Example C08_ex_busy : exists s, sreach ex_nus ex_upd 2 3 [1; 2] s /\ scomputing s 0 1 /\ sn s = 1.
Proof.
  set (P := fun s : @sst nat nat => (sn s =? 1) && match scur s 0 with SBusy 1 => true | _ => false end).
  assert (E : existsb (fun k => P (Nat.iter k ex_round (sinit [1; 2] [0; 0]))) (seq 0 100) = true) by (vm_compute; reflexivity).
  apply existsb_exists in E as (k & _ & E). exists (Nat.iter k ex_round (sinit [1; 2] [0; 0])).
  apply andb_prop in E as [E1 E2]. apply Nat.eqb_eq in E1.
  split; [apply ex_round_reach; now constructor|]. split; [|exact E1].
  unfold scomputing. destruct (scur _ 0) as [|?|[|[|?]]]; congruence || reflexivity.
Qed.

Print Assumptions C08_result.
Print Assumptions C08_alternation.
Print Assumptions C08_inputs_stable.
Print Assumptions C08_no_abort.
