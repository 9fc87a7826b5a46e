(** Every action of scheduler and workers preserves the invariant; the invariant holds in every reachable state. *)
From Verif Require Import Util SchedModel SchedProofs SchedInv.

(** a group is done: last step completed, sends and receives completed *)
Definition doneb (t : tgs) : bool := (cf t 4 =? 4) && (2 <=? cf t 6) && (2 <=? cf t 7).

Lemma done_facts N t : Loc N t -> doneb t = true ->
  cf t 0 = 5 /\ cf t 1 = 5 /\ cf t 2 = 3 /\ cf t 3 = 3 /\ cf t 4 = 4 /\ cf t 5 = 4 /\ cf t 6 = 2 /\ cf t 7 = 3 /\
  nTs t = N /\ nSe t = N /\ nRe t = N /\ tpI t = N /\ tpS t = N /\ srI t = N /\ srS t = N /\ duI t = N /\ duS t = N.
Proof.
  unfold doneb. intros L H. apply andb_prop in H as [H H3]. apply andb_prop in H as [H1 H2].
  apply Nat.eqb_eq in H1. apply Nat.leb_le in H2, H3.
  open_loc.
Qed.

Lemma finished_done c g t : Loc (nReq c g) t ->
  finished c g t && (2 <=? cf t 6) && (2 <=? cf t 7) = doneb t.
Proof.
  intros L. unfold finished, doneb. change (nReqFull c g + maxDiv c g) with (nReq c g).
  pose proof (nReq_pos c g). set (N := nReq c g) in *.
  f_equal. f_equal. open_loc; cbn in *; lia.
Qed.

(** blocks of a finished group do nothing but count *)
Lemma done_blk c mpi s g b s' ev : Loc (nReq c g) (tg s g) -> doneb (tg s g) = true ->
  run_blk c mpi s g b = Next s' ev -> tg s' = tg s.
Proof.
  intros L D H. destruct (done_facts _ _ L D) as (D0 & D1 & D2 & D3 & D4 & D5 & D6 & D7 & _).
  destruct b; unfold run_blk, cfe in H; rewrite ?D0, ?D1, ?D2, ?D3, ?D4, ?D5, ?D6, ?D7 in H; cbn in H;
    try (now injection H as <- <-).
  - destruct (finished c g (tg s g)); cbn in H; now injection H as <- <-.
Qed.

(** a block changes its own group only *)
Lemma blk_frame c mpi s g b s' ev : run_blk c mpi s g b = Next s' ev ->
  forall g', g' <> g -> tg s' g' = tg s g'.
Proof.
  intros H g' Ne.
  destruct b; unfold run_blk, set_rdy in H;
    repeat match type of H with (if ?x then _ else _) = _ => destruct x end;
    try discriminate; injection H as <- <-; cbn; auto; now rewrite fset_ne.
Qed.

Lemma blk_fin c mpi s g b s' ev : run_blk c mpi s g b = Next s' ev ->
  fin s' = fin s /\ (b <> Scount -> nFin s' = nFin s) /\ cur s' = cur s /\ exe s' = exe s /\ buf s' = buf s /\ sbf s' = sbf s.
Proof.
  intros H.
  destruct b; unfold run_blk, set_rdy in H;
    repeat match type of H with (if ?x then _ else _) = _ => destruct x end;
    try discriminate; injection H as <- <-; cbn; repeat apply conj; auto; congruence.
Qed.

(** positions of the instructions *)
Lemma nth_chunks (l : list blk) n a i :
  nth_error (flat_map (fun g => map (I g) l) (seq a n)) i =
  if i <? n * length l then option_map (I (a + i / length l)) (nth_error l (i mod length l)) else None.
Proof.
  revert a i. induction n as [|n IH]; intros a i; cbn [seq flat_map].
  - now destruct i.
  - destruct (Nat.ltb_spec i (length l)) as [H|H].
    + rewrite nth_error_app1 by (rewrite map_length; auto).
      replace (i <? S n * length l) with true by (symmetry; apply Nat.ltb_lt; nia).
      rewrite nth_error_map, Nat.div_small, Nat.mod_small by auto. now rewrite Nat.add_0_r.
    + rewrite nth_error_app2 by (rewrite map_length; auto). rewrite map_length, IH.
      destruct (Nat.eq_dec (length l) 0) as [E|E].
      { rewrite E in *. rewrite !Nat.mul_0_r. reflexivity. }
      replace (i <? S n * length l) with (i - length l <? n * length l).
      2: { destruct (Nat.ltb_spec (i - length l) (n * length l)), (Nat.ltb_spec i (S n * length l)); auto; nia. }
      assert (E1 : i = (i - length l) + 1 * length l) by lia.
      assert (E2 : i / length l = (i - length l) / length l + 1) by (rewrite E1 at 1; rewrite Nat.div_add by auto; reflexivity).
      assert (E3 : i mod length l = (i - length l) mod length l) by (rewrite E1 at 1; rewrite Nat.mod_add by auto; reflexivity).
      rewrite E2, E3. replace (a + ((i - length l) / length l + 1)) with (S a + (i - length l) / length l) by lia.
      reflexivity.
Qed.

Lemma chunks_len (l : list blk) n a : length (flat_map (fun g => map (I g) l) (seq a n)) = n * length l.
Proof. revert a. induction n; intros; cbn; auto. rewrite app_length, map_length, IHn. reflexivity. Qed.

Lemma nth_prog c i :
  nth_error (prog c) i =
  if i <? 9 * nT c then option_map (I (i / 9)) (nth_error loop1 (i mod 9))
  else if i =? 9 * nT c then Some Izero
  else if i <? 19 * nT c + 1 then option_map (I ((i - (9 * nT c + 1)) / 10)) (nth_error loop2 ((i - (9 * nT c + 1)) mod 10))
  else if i =? 19 * nT c + 1 then Some Iend else None.
Proof.
  unfold prog.
  assert (L1 : length (flat_map (fun g => map (I g) loop1) (seq 0 (nT c))) = 9 * nT c) by (rewrite chunks_len; cbn; lia).
  assert (L2 : length (flat_map (fun g => map (I g) loop2) (seq 0 (nT c))) = 10 * nT c) by (rewrite chunks_len; cbn; lia).
  destruct (Nat.ltb_spec i (9 * nT c)).
  { rewrite nth_error_app1 by lia. rewrite nth_chunks. cbn [length loop1].
    replace (i <? nT c * 9) with true by lia. reflexivity. }
  rewrite nth_error_app2 by lia. rewrite L1.
  destruct (Nat.eqb_spec i (9 * nT c)).
  { subst. rewrite Nat.sub_diag. reflexivity. }
  replace (i - 9 * nT c) with (S (i - (9 * nT c + 1))) by lia. cbn [nth_error app].
  destruct (Nat.ltb_spec i (19 * nT c + 1)).
  { rewrite nth_error_app1 by lia. rewrite nth_chunks. cbn [length loop2].
    replace (i - (9 * nT c + 1) <? nT c * 10) with true by lia. reflexivity. }
  rewrite nth_error_app2 by lia. rewrite L2.
  destruct (Nat.eqb_spec i (19 * nT c + 1)).
  { subst. replace (19 * nT c + 1 - (9 * nT c + 1) - 10 * nT c) with 0 by lia. reflexivity. }
  destruct (i - (9 * nT c + 1) - 10 * nT c) as [|k] eqn:E; [lia|]. cbn. now destruct k.
Qed.

Lemma nth_prog_group c i g b : nth_error (prog c) i = Some (I g b) -> g < nT c.
Proof.
  rewrite nth_prog. intros H.
  destruct (Nat.ltb_spec i (9 * nT c)).
  - destruct (nth_error loop1 (i mod 9)); [|discriminate]. cbn [option_map] in H. assert (g = i / 9) as -> by congruence.
    apply Nat.div_lt_upper_bound; lia.
  - destruct (Nat.eqb_spec i (9 * nT c)); [discriminate|].
    destruct (Nat.ltb_spec i (19 * nT c + 1)).
    + destruct (nth_error loop2 _); [|discriminate]. cbn [option_map] in H.
      assert (g = (i - (9 * nT c + 1)) / 10) as -> by congruence.
      apply Nat.div_lt_upper_bound; lia.
    + destruct (Nat.eqb_spec i (19 * nT c + 1)); discriminate.
Qed.

(** in the second loop, the counting block is the last of ten *)
Lemma nth_prog_count c i g b : 9 * nT c < i -> nth_error (prog c) i = Some (I g b) ->
  g = (i - (9 * nT c + 1)) / 10 /\
  (b = Scount -> (S i - (9 * nT c + 1)) / 10 = g + 1) /\
  (b <> Scount -> (S i - (9 * nT c + 1)) / 10 = g).
Proof.
  intros Hi. rewrite nth_prog. intros H.
  replace (i <? 9 * nT c) with false in H by lia. replace (i =? 9 * nT c) with false in H by lia.
  destruct (Nat.ltb_spec i (19 * nT c + 1)).
  2: { destruct (Nat.eqb_spec i (19 * nT c + 1)); discriminate. }
  replace (S i - (9 * nT c + 1)) with (S (i - (9 * nT c + 1))) by lia.
  set (k := i - (9 * nT c + 1)) in *.
  destruct (nth_error loop2 (k mod 10)) as [b'|] eqn:E; [|discriminate]. cbn [option_map] in H.
  assert (g = k / 10) as -> by congruence. assert (b' = b) as -> by congruence. clear H.
  split; [reflexivity|].
  pose proof (Nat.div_mod k 10 ltac:(lia)) as DM. pose proof (Nat.mod_upper_bound k 10 ltac:(lia)) as MB.
  assert (SK : forall d, S k / 10 = d <-> 10 * d <= S k < 10 * d + 10).
  { intros d. split.
    - intros <-. pose proof (Nat.div_mod (S k) 10 ltac:(lia)). pose proof (Nat.mod_upper_bound (S k) 10 ltac:(lia)). lia.
    - intros B. symmetry. apply (Nat.div_unique _ _ _ (S k - 10 * d)); lia. }
  rewrite !SK.
  set (m := k mod 10) in *. clearbody m.
  split; intros Hb.
  - do 10 (destruct m as [|m]; cbn in E; [injection E as <-; try discriminate; lia|]). lia.
  - do 9 (destruct m as [|m]; [lia|]). destruct m; [cbn in E; injection E as <-; congruence|lia].
Qed.

Definition FinInv (c : cfg) (s : rst) : Prop :=
  (9 * nT c < pc s -> nFin s <= length (filter (fun g => doneb (tg s g)) (seq 0 ((pc s - (9 * nT c + 1)) / 10)))) /\
  (fin s = true -> forall g, g < nT c -> doneb (tg s g) = true) /\
  pc s <= 19 * nT c + 1.

Lemma filter_len_mono {A} (P Q : A -> bool) l :
  (forall x, In x l -> P x = true -> Q x = true) -> length (filter P l) <= length (filter Q l).
Proof.
  induction l as [|x l IH]; intros H; cbn; auto.
  assert (length (filter P l) <= length (filter Q l)) by (apply IH; intros; apply H; cbn; auto).
  specialize (H x (or_introl eq_refl)). destruct (P x), (Q x); cbn; try lia.
Qed.

Lemma filter_full {A} (P : A -> bool) l : length l <= length (filter P l) -> forall x, In x l -> P x = true.
Proof.
  induction l as [|x l IH]; cbn; intros H y Hy; [contradiction|].
  assert (FL : length (filter P l) <= length l) by (clear; induction l; cbn; auto; destruct (P a); cbn; lia).
  destruct (P x) eqn:E; cbn in H; [|lia].
  destruct Hy as [->|Hy]; auto. apply IH; auto. lia.
Qed.

Lemma sched_inv c mpi s : Inv c s -> FinInv c s ->
  match sched_step c mpi s with
  | Next s' _ => Inv c s' /\ FinInv c s'
  | Stuck => fin s = true
  | Fail => False
  end.
Proof.
  intros HI (HF1 & HF2 & HF3). unfold sched_step. destruct (fin s) eqn:Ef; auto.
  destruct (nth_error (prog c) (pc s)) as [[g b| |]|] eqn:En.
  - pose proof (nth_prog_group _ _ _ _ En) as Hg.
    destruct (run_blk_inv c mpi s g b HI Hg) as (s' & ev & E & HI' & Hpc & _).
    rewrite E. split; [exact HI'|].
    destruct (blk_fin _ _ _ _ _ _ _ E) as (E1 & E2 & _).
    assert (MON : forall g', g' < nT c -> doneb (tg s g') = true -> doneb (tg s' g') = true).
    { intros g' Hg' D. destruct (Nat.eq_dec g' g) as [->|Ne].
      - rewrite (done_blk _ _ _ _ _ _ _ (proj1 HI g Hg) D E). exact D.
      - rewrite (blk_frame _ _ _ _ _ _ _ E g' Ne). exact D. }
    unfold FinInv. cbn [pc tg fin nFin set_pc]. rewrite Hpc. split; [|split].
    + intros Hp. destruct (Nat.eq_dec (pc s) (9 * nT c)) as [Ep|Ep].
      { rewrite nth_prog, Ep in En. replace (9 * nT c <? 9 * nT c) with false in En by lia.
        rewrite Nat.eqb_refl in En. discriminate. }
      assert (Hp' : 9 * nT c < pc s) by lia. specialize (HF1 Hp').
      destruct (nth_prog_count _ _ _ _ Hp' En) as (G1 & G2 & G3).
      assert (BS : forall k, k <= nT c ->
         length (filter (fun g0 => doneb (tg s g0)) (seq 0 k)) <= length (filter (fun g0 => doneb (tg s' g0)) (seq 0 k))).
      { intros k Hk. apply filter_len_mono. intros x Hx. apply in_seq in Hx. apply MON. lia. }
      rewrite <- G1 in HF1. pose proof (BS g ltac:(lia)) as BG.
      destruct b; try (rewrite E2, G3 by discriminate; lia).
      (* Scount *)
      rewrite G2 by reflexivity. replace (g + 1) with (S g) by lia.
      rewrite seq_S, filter_app, app_length. cbn [filter plus].
      unfold run_blk in E. rewrite finished_done in E by (apply (proj1 HI); auto).
      destruct (doneb (tg s g)) eqn:D.
      * injection E as <- <-. cbn [nFin tg] in *. rewrite D. cbn. lia.
      * injection E as <- <-. cbn [nFin tg] in *. lia.
    + rewrite E1. intros K. congruence.
    + assert (pc s < 19 * nT c + 1).
      { rewrite nth_prog in En. destruct (Nat.ltb_spec (pc s) (9 * nT c)); [lia|].
        destruct (Nat.eqb_spec (pc s) (9 * nT c)); [lia|].
        destruct (Nat.ltb_spec (pc s) (19 * nT c + 1)); [lia|].
        destruct (Nat.eqb_spec (pc s) (19 * nT c + 1)); discriminate. }
      lia.
  - split; [exact HI|].
    assert (Ep : pc s = 9 * nT c).
    { rewrite nth_prog in En. destruct (Nat.ltb_spec (pc s) (9 * nT c)); [destruct (nth_error loop1 _); discriminate|].
      destruct (Nat.eqb_spec (pc s) (9 * nT c)); auto.
      destruct (Nat.ltb_spec (pc s) (19 * nT c + 1)); [destruct (nth_error loop2 _); discriminate|].
      destruct (Nat.eqb_spec (pc s) (19 * nT c + 1)); discriminate. }
    unfold FinInv. cbn [pc tg fin nFin]. split; [intros; lia|]. split; [congruence|lia].
  - split; [exact HI|].
    assert (Ep : pc s = 19 * nT c + 1).
    { rewrite nth_prog in En. destruct (Nat.ltb_spec (pc s) (9 * nT c)); [destruct (nth_error loop1 _); discriminate|].
      destruct (Nat.eqb_spec (pc s) (9 * nT c)); [discriminate|].
      destruct (Nat.ltb_spec (pc s) (19 * nT c + 1)); [destruct (nth_error loop2 _); discriminate|].
      destruct (Nat.eqb_spec (pc s) (19 * nT c + 1)); [auto|discriminate]. }
    unfold FinInv. cbn [pc tg fin nFin]. split; [lia|]. split; [|lia].
    intros Hn g Hg. apply Nat.eqb_eq in Hn.
    assert (Hp' : 9 * nT c < pc s) by lia. specialize (HF1 Hp').
    rewrite Ep in HF1. replace (19 * nT c + 1 - (9 * nT c + 1)) with (nT c * 10) in HF1 by lia.
    rewrite Nat.div_mul in HF1 by lia. rewrite Hn in HF1.
    apply (filter_full (fun g0 => doneb (tg s g0)) (seq 0 (nT c))); [rewrite seq_length; auto|apply in_seq; lia].
  - exfalso. rewrite nth_prog in En. destruct (Nat.ltb_spec (pc s) (9 * nT c)).
    + assert (HL : pc s mod 9 < length loop1) by (apply (Nat.mod_upper_bound _ 9); lia).
      apply nth_error_Some in HL. destruct (nth_error loop1 _); [discriminate|congruence].
    + destruct (Nat.eqb_spec (pc s) (9 * nT c)); [discriminate|].
      destruct (Nat.ltb_spec (pc s) (19 * nT c + 1)).
      * assert (HL : (pc s - (9 * nT c + 1)) mod 10 < length loop2) by (apply (Nat.mod_upper_bound _ 10); lia).
        apply nth_error_Some in HL. destruct (nth_error loop2 _); [discriminate|congruence].
      * destruct (Nat.eqb_spec (pc s) (19 * nT c + 1)); [discriminate|lia].
Qed.

Lemma get_inv c w g e s s' ev : Inv c s -> get_step c w g e s = Next s' ev -> Inv c s' /\
  tg s' = tg s /\ fin s' = fin s /\ nFin s' = nFin s /\ pc s' = pc s.
Proof.
  intros (I1 & I2 & I3 & I4 & I5 & I6) H. unfold get_step in H.
  destruct (negb _) eqn:B; [discriminate|]. apply negb_false_iff in B.
  apply andb_prop in B as [B B3]. apply andb_prop in B as [B1 B2].
  destruct (cur s w) eqn:C; try discriminate.
  destruct (status_eqb (stat s g e w) RDY) eqn:E; [|discriminate]. apply status_eqb_iff in E.
  injection H as <- <-. cbn. split; [|auto].
  split; [exact I1|]. split; [exact I2|]. split; [exact I3|]. split; [|split; [exact I5|exact I6]].
  destruct I4 as (J1 & J2 & J3). repeat apply conj; cbn.
  - intros w0 g0 e0 H. unfold fset in H. destruct (Nat.eqb_spec w0 w) as [->|]; [|apply J1; auto].
    injection H as <- <-. repeat apply conj; auto; lia.
  - intros w0 g0 e0 H. unfold fset in H. destruct (Nat.eqb_spec w0 w) as [->|]; [discriminate|apply J2; auto].
  - intros g0 e0 w0 H. unfold fset. destruct (Nat.eqb_spec w0 w) as [->|]; [|auto].
    apply J3 in H. congruence.
Qed.

Lemma set_stat_spec s g e w v g' e' w' :
  set_stat s g e w v g' e' w' = stat s g' e' w' \/ (g' = g /\ e' = e /\ w' = w /\ set_stat s g e w v g' e' w' = v).
Proof.
  unfold set_stat. destruct (Nat.eqb_spec g' g), (Nat.eqb_spec e' e), (Nat.eqb_spec w' w); cbn; auto.
Qed.

Lemma set_stat_ne s g e w v g' e' w' : (g', e', w') <> (g, e, w) -> set_stat s g e w v g' e' w' = stat s g' e' w'.
Proof.
  unfold set_stat. destruct (Nat.eqb_spec g' g), (Nat.eqb_spec e' e), (Nat.eqb_spec w' w); cbn; auto. congruence.
Qed.

Lemma set_stat_eq s g e w v : set_stat s g e w v g e w = v.
Proof. unfold set_stat. now rewrite !Nat.eqb_refl. Qed.

Lemma start_inv c w s : Inv c s ->
  match start_step c w s with
  | Next s' ev => Inv c s' /\ tg s' = tg s /\ fin s' = fin s /\ nFin s' = nFin s /\ pc s' = pc s
  | Stuck => True
  | Fail => False
  end.
Proof.
  intros (I1 & I2 & I3 & I4 & I5 & I6). unfold start_step.
  destruct (cur s w) as [|g e|g e] eqn:C; auto.
  destruct I4 as (J1 & J2 & J3). destruct (J1 _ _ _ C) as (K1 & K2 & K3 & K4).
  rewrite K1. cbn [status_eqb negb]. split; [|cbn; auto].
  split; [exact I1|]. split; [exact I2|]. split; [|split; [|split; [exact I5|exact I6]]].
  - intros g0 e0 w0 H1 H2 H3. cbn.
    destruct (set_stat_spec s g e w IPR g0 e0 w0) as [->|(-> & -> & -> & ->)]; auto.
    specialize (I3 g e w H1 H2 H3). rewrite K1 in I3. unfold PkgOk in *.
    destruct (cf (tg s g) e =? 1); auto. destruct I3 as [_ [?|?]]; discriminate.
  - repeat apply conj; cbn.
    + intros w0 g0 e0 H. unfold fset in H. destruct (Nat.eqb_spec w0 w) as [->|]; [discriminate|].
      rewrite set_stat_ne by congruence. auto.
    + intros w0 g0 e0 H. unfold fset in H. destruct (Nat.eqb_spec w0 w) as [->|].
      * injection H as <- <-. rewrite set_stat_eq. auto.
      * rewrite set_stat_ne by congruence. auto.
    + intros g0 e0 w0 H. unfold fset. destruct (Nat.eqb_spec w0 w) as [->|].
      * destruct (set_stat_spec s g e w IPR g0 e0 w) as [E|(-> & -> & _ & _)]; auto.
        rewrite E in H. apply J3 in H. congruence.
      * rewrite set_stat_ne in H by congruence. auto.
Qed.

Lemma pow2_half g : 0 < g -> 2 ^ (g - 1) + 2 ^ (g - 1) = 2 ^ g.
Proof. intros H. replace g with (S (g - 1)) at 3 by lia. cbn. lia. Qed.

Lemma local_bufs_ok g n b : BufOk g n b -> BufOk g (S n) (local_bufs g n b).
Proof.
  intros H. unfold BufOk, local_bufs. cbn [d0 d1 d2]. repeat apply conj; auto.
  pose proof (Nat.div_mod n 2 ltac:(lia)) as DM. pose proof (Nat.mod_upper_bound n 2 ltac:(lia)) as MB.
  destruct (Nat.eqb_spec (n mod 2) 0) as [E|E].
  - unfold iv. repeat f_equal. lia.
  - destruct n as [|m]; [cbn in E; lia|]. cbn [BufOk] in H. destruct H as (_ & -> & _).
    unfold tag_add, iv. replace (m + 1) with (S m) by lia. rewrite Nat.eqb_refl.
        assert (m / 2 = S m / 2) as ->; [|reflexivity].
    symmetry. apply (Nat.div_unique _ _ _ 0); lia.
Qed.

Lemma local_send_ok g n b h old : (0 < g \/ g <= h) ->
  BufOk g (S n) b -> SbfOk g h n old -> SbfOk g h (S n) (local_send g n b h old).
Proof.
  intros Hgh (B0 & B1 & B2) H. unfold local_send, SbfOk in *.
  destruct (Nat.eqb_spec g h) as [->|Ne]; [now rewrite B0|].
  destruct (Nat.ltb_spec g h).
  - pose proof (Nat.div_mod n 2 ltac:(lia)) as DM. pose proof (Nat.mod_upper_bound n 2 ltac:(lia)) as MB.
    destruct (Nat.eqb_spec (n mod 2) 0) as [E|E].
    + intros Hn. destruct n as [|m]; [lia|].
      assert (1 <= m). { destruct m; [cbn in E; lia|lia]. }
      rewrite H by auto.
      assert (S (S m) / 2 = S m / 2) as ->. { symmetry. apply (Nat.div_unique _ _ _ 1); lia. }
      reflexivity.
    + intros _. rewrite B1.
      assert (S n / 2 = n / 2 + 1) as ->. { symmetry. apply (Nat.div_unique _ _ _ 0); lia. }
      replace (n / 2 + 1 - 1) with (n / 2) by lia. replace (2 * (n / 2 + 1)) with (n + 1) by lia. reflexivity.
  - rewrite B2, B0. unfold tag_sub, iv. rewrite Nat.eqb_refl. cbn [andb].
    pose proof (pow2_half g ltac:(lia)).
    replace (n * 2 ^ g + 2 ^ (g - 1) <=? (n + 1) * 2 ^ g) with true by (symmetry; apply Nat.leb_le; nia).
    reflexivity.
Qed.

Lemma done_inv c w s : Inv c s ->
  match done_step c w s with
  | Next s' ev => Inv c s' /\ tg s' = tg s /\ fin s' = fin s /\ nFin s' = nFin s /\ pc s' = pc s
  | Stuck => True
  | Fail => False
  end.
Proof.
  intros (I1 & I2 & I3 & I4 & I5 & I6). unfold done_step.
  destruct (cur s w) as [|g e|g e] eqn:C; auto.
  destruct I4 as (J1 & J2 & J3). destruct (J2 _ _ _ C) as (K1 & K2 & K3 & K4).
  rewrite K1. cbn [status_eqb negb]. split; [|cbn; auto].
  pose proof (I3 g e w K3 K4 K2) as PK. rewrite K1 in PK. unfold PkgOk in PK.
  destruct (cf (tg s g) e =? 1) eqn:CE; [|destruct PK as [_ [?|?]]; discriminate].
  (* number of executions of a local update: number of steps *)
  assert (XN : e < 2 -> exe s g e w = nTs (tg s g)).
  { intros He. apply Nat.eqb_eq in CE. pose proof (I1 g K3) as L. clear - PK CE L He.
    rewrite PK. destruct e as [|[|e]]; [| |lia]; open_loc; cbn in *; lia. }
  split; [exact I1|]. split; [exact I2|]. split; [|split; [|split]].
  - intros g0 e0 w0 H1 H2 H3. cbn [tg stat exe].
    destruct (Nat.eqb_spec g0 g) as [->|]; [|rewrite set_stat_ne by congruence; apply I3; auto].
    destruct (Nat.eqb_spec e0 e) as [->|]; [|rewrite set_stat_ne by congruence; apply I3; auto].
    destruct (Nat.eqb_spec w0 w) as [->|]; [|rewrite set_stat_ne by congruence; apply I3; auto].
    cbn [andb]. rewrite set_stat_eq. unfold PkgOk. rewrite CE. now f_equal.
  - repeat apply conj; cbn [cur stat].
    + intros w0 g0 e0 H. unfold fset in H. destruct (Nat.eqb_spec w0 w) as [->|]; [discriminate|].
      rewrite set_stat_ne by congruence. auto.
    + intros w0 g0 e0 H. unfold fset in H. destruct (Nat.eqb_spec w0 w) as [->|]; [discriminate|].
      rewrite set_stat_ne by congruence. auto.
    + intros g0 e0 w0 H. unfold fset. destruct (Nat.eqb_spec w0 w) as [->|].
      * destruct (set_stat_spec s g e w FIN g0 e0 w) as [E|(-> & -> & _ & E)]; [|congruence].
        rewrite E in H. pose proof (J3 _ _ _ H) as H'. rewrite C in H'. injection H' as <- <-.
        rewrite set_stat_eq in E. congruence.
      * rewrite set_stat_ne in H by congruence. auto.
  - intros g0 e0 w0 H1 H2 H3. cbn [buf exe].
    destruct (Nat.ltb_spec e 2) as [He|He].
    + destruct (Nat.eqb_spec g0 g) as [->|]; [|apply I5; auto].
      destruct (Nat.eqb_spec e0 e) as [->|]; [|apply I5; auto].
      destruct (Nat.eqb_spec w0 w) as [->|]; [|apply I5; auto].
      cbn [andb]. rewrite <- (XN He). apply local_bufs_ok, I5; auto.
    + replace (e0 =? e) with false by lia. rewrite andb_false_r. cbn [andb]. apply I5; auto.
  - intros g0 h w0 H1 H2. cbn [sbf exe].
    destruct (Nat.eqb_spec e 1) as [->|He].
    + destruct (Nat.eqb_spec g0 g) as [->|]; [|apply I6; auto].
      destruct (Nat.eqb_spec w0 w) as [->|]; [|apply I6; auto].
      cbn [andb Nat.eqb]. rewrite <- (XN ltac:(lia)).
      apply local_send_ok; [lia| |apply I6; auto].
      apply local_bufs_ok, I5; auto.
    + replace (1 =? e) with false by lia. rewrite andb_false_r. cbn [andb]. apply I6; auto.
Qed.

Lemma init_inv c b0 sb0 : Inv c (init b0 sb0) /\ FinInv c (init b0 sb0).
Proof.
  split.
  - split; [|split; [|split; [|split; [|split]]]].
    + intros g Hg. exists IU, SU. unfold LocI, LocS, couple. cbn. repeat apply conj; auto.
    + intros g Hg. unfold Pair, started. cbn; unfold cfMax. repeat apply conj; lia.
    + intros g e w H1 H2 H3. unfold PkgOk. cbn. split; auto.
      destruct e as [|[|[|[|[|e]]]]]; reflexivity.
    + repeat apply conj; cbn; discriminate.
    + intros g e w H1 H2 H3. exact Logic.I.
    + intros g h w H1 H2. exact Logic.I.
  - unfold FinInv, init. cbn [pc nFin fin]. repeat apply conj; try lia; discriminate.
Qed.

Lemma rstep_inv c s l : Inv c s -> FinInv c s ->
  match rstep c s l with
  | Next s' _ => Inv c s' /\ FinInv c s'
  | Stuck => True
  | Fail => False
  end.
Proof.
  intros HI HF. destruct l as [mpi|w g e|w|w]; cbn [rstep].
  - pose proof (sched_inv c mpi s HI HF) as H. destruct (sched_step c mpi s); auto.
  - destruct (get_step c w g e s) eqn:E; auto.
    + destruct (get_inv _ _ _ _ _ _ _ HI E) as (H1 & H2 & H3 & H4 & H5). split; auto.
      unfold FinInv. rewrite H2, H3, H4, H5. exact HF.
    + unfold get_step in E. destruct (negb _); [discriminate|].
      destruct (cur s w); try discriminate. destruct (status_eqb _ _); discriminate.
  - pose proof (start_inv c w s HI) as H. destruct (start_step c w s); auto.
    destruct H as (H1 & H2 & H3 & H4 & H5). split; auto.
    unfold FinInv. rewrite H2, H3, H4, H5. exact HF.
  - pose proof (done_inv c w s HI) as H. destruct (done_step c w s); auto.
    destruct H as (H1 & H2 & H3 & H4 & H5). split; auto.
    unfold FinInv. rewrite H2, H3, H4, H5. exact HF.
Qed.

Lemma reach_inv c s : reach c s -> Inv c s /\ FinInv c s.
Proof.
  induction 1 as [b0 sb0|s l s' ev R [HI HF] E]; [apply init_inv|].
  pose proof (rstep_inv c s l HI HF) as H. now rewrite E in H.
Qed.
