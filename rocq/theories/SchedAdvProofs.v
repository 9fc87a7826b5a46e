(** Invariant of the advection scheduling model and its proof. *)
From Verif Require Import Util SchedModel SchedProofs SchedInv SchedReach SchedAdv.

Definition AU (N : nat) (t : tgs) : Prop :=
  nTs t = 0 /\ tpI t = 0 /\ tpS t = 0 /\ duI t = 0 /\ duS t = 0 /\ 0 < N /\ forall i, i < 6 -> cf t i = 9.
Definition AA (N : nat) (t : tgs) : Prop :=
  let n := nTs t in
  n < N /\ duI t = n /\ duS t = n /\ cf t 2 = 0 /\ cf t 3 = 0 /\
  ((cf t 0 = 1 /\ tpI t = n) \/ (cf t 0 = 2 /\ tpI t = n + 1)) /\
  ((cf t 1 = 1 /\ tpS t = n /\ cf t 4 = 0 /\ cf t 5 = 0) \/ (cf t 1 = 2 /\ tpS t = n + 1 /\ cf t 4 = 0 /\ cf t 5 = 0) \/
   (cf t 1 = 3 /\ tpS t = n + 1 /\ (cf t 4 = 1 \/ cf t 4 = 2) /\ (cf t 5 = 1 \/ cf t 5 = 2))).
Definition AB (N : nat) (t : tgs) : Prop :=
  let n := nTs t in
  n < N /\ tpI t = n + 1 /\ tpS t = n + 1 /\ cf t 0 = 4 /\ cf t 1 = 4 /\ cf t 4 = 3 /\ cf t 5 = 3 /\
  ((cf t 2 = 1 /\ duI t = n) \/ (cf t 2 = 2 /\ duI t = n + 1)) /\
  ((cf t 3 = 1 /\ duS t = n) \/ (cf t 3 = 2 /\ duS t = n + 1)).
Definition AF (N : nat) (t : tgs) : Prop :=
  nTs t = N /\ tpI t = N /\ tpS t = N /\ duI t = N /\ duS t = N /\ forall i, i < 6 -> cf t i = 0.

Definition ALoc (N : nat) (t : tgs) : Prop := AU N t \/ AA N t \/ AB N t \/ AF N t.

Definition APair (t T : tgs) : Prop :=
  (2 * nTs T <= duI t /\ 2 * nTs T <= duS t) /\
  (nTs t <= 2 * duI T + 1 /\ nTs t <= 2 * duS T + 1) /\
  (cf t 0 = 4 -> nTs t + 1 <= 2 * tpI T /\ nTs t + 1 <= 2 * tpS T) /\
  (cf T 0 = 4 -> 2 * (nTs T + 1) <= tpI t /\ 2 * (nTs T + 1) <= tpS t).

Definition acnt (t : tgs) (e : nat) : nat :=
  match e with 0 => tpI t | 1 => tpS t | 2 => duI t | 3 => duS t | _ => 0 end.

Definition APkg (t : tgs) (e : nat) (st : status) (x : nat) : Prop :=
  if (e <? 4) && (cf t e =? 1) then match st with
                      | RDY | IPR => x = acnt t e
                      | FIN => x = S (acnt t e)
                      | WAI => False
                      end
  else x = acnt t e /\ (st = FIN \/ st = WAI).

Definition AInv (c : cfg) (s : rst) : Prop :=
  (forall g, g < nT c -> ALoc (nReq c g) (tg s g)) /\
  (forall g, g + 1 < nT c -> APair (tg s g) (tg s (g + 1))) /\
  (forall g e w, g < nT c -> e < 6 -> w < nW c -> APkg (tg s g) e (stat s g e w) (exe s g e w)) /\
  CurInv c s /\ BufInv c s.

Ltac openA :=
  match goal with [ H : ALoc _ _ |- _ ] => unfold ALoc, AU, AA, AB, AF in H; cbv zeta in H;
    let H0 := fresh in let H1 := fresh in let H2 := fresh in let H3 := fresh in let H4 := fresh in let H5 := fresh in
    let K := fresh "K" in
    destruct H as [H|[H|[H|H]]];
    [ destruct H as (H0 & H1 & H2 & H3 & H4 & H5 & K);
      pose proof (K 0 ltac:(lia)); pose proof (K 1 ltac:(lia)); pose proof (K 2 ltac:(lia)); pose proof (K 3 ltac:(lia));
      pose proof (K 4 ltac:(lia)); pose proof (K 5 ltac:(lia)); clear K
    | | | destruct H as (H0 & H1 & H2 & H3 & H4 & K);
      pose proof (K 0 ltac:(lia)); pose proof (K 1 ltac:(lia)); pose proof (K 2 ltac:(lia)); pose proof (K 3 ltac:(lia));
      pose proof (K 4 ltac:(lia)); pose proof (K 5 ltac:(lia)); clear K ] end.

Lemma apair_small t t' T : APair t T -> nTs t' = nTs t -> duI t <= duI t' -> duS t <= duS t' -> tpI t <= tpI t' -> tpS t <= tpS t' ->
  (cf t' 0 = 4 -> cf t 0 = 4) -> APair t' T.
Proof. unfold APair. intros ((A1 & A2) & (B1 & B2) & C & D) E1 E2 E3 E4 E5 E6. rewrite E1. repeat split; lia. Qed.
Lemma apair_large t T T' : APair t T -> nTs T' = nTs T -> duI T <= duI T' -> duS T <= duS T' -> tpI T <= tpI T' -> tpS T <= tpS T' ->
  (cf T' 0 = 4 -> cf T 0 = 4) -> APair t T'.
Proof. unfold APair. intros ((A1 & A2) & (B1 & B2) & C & D) E1 E2 E3 E4 E5 E6. rewrite E1. repeat split; lia. Qed.

Definition aok_step (c : cfg) (s : rst) (o : aout) : Prop :=
  exists s' ev, o = ANext s' ev /\ AInv c s' /\ pc s' = pc s.

Lemma aok_skip c s : AInv c s -> aok_step c s (ANext s []).
Proof. intros H. exists s, []. auto. Qed.

Lemma aok_with c s g t' ev : AInv c s -> g < nT c -> ALoc (nReq c g) t' ->
  (g + 1 < nT c -> APair (tg s g) (tg s (g + 1)) -> APair t' (tg s (g + 1))) ->
  (0 < g -> APair (tg s (g - 1)) (tg s g) -> APair (tg s (g - 1)) t') ->
  (forall e w, e < 6 -> w < nW c -> APkg (tg s g) e (stat s g e w) (exe s g e w) -> APkg t' e (stat s g e w) (exe s g e w)) ->
  aok_step c s (ANext (with_tg s g t') ev).
Proof.
  intros (I1 & I2 & I3 & I4 & I5) Hg L PS PL PK. exists (with_tg s g t'), ev. split; [reflexivity|]. split; [|reflexivity].
  split; [|split; [|split; [|split; [exact I4|exact I5]]]]; cbn [tg with_tg stat exe].
  - intros g' Hg'. destruct (Nat.eq_dec g' g) as [->|]; [now rewrite fset_eq|rewrite fset_ne by auto; auto].
  - intros g' Hg'. destruct (Nat.eq_dec g' g) as [->|Ne].
    + rewrite fset_eq, fset_ne by lia. auto.
    + rewrite (fset_ne _ _ g') by auto. destruct (Nat.eq_dec (g' + 1) g) as [<-|].
      * rewrite fset_eq. replace (g' + 1 - 1) with g' in PL by lia. apply PL; [lia|auto].
      * rewrite fset_ne by auto. auto.
  - intros g' e w H1 H2 H3. destruct (Nat.eq_dec g' g) as [->|]; [rewrite fset_eq; auto|rewrite fset_ne by auto; auto].
Qed.

Lemma aok_rdy c s g e e2 t' : AInv c s -> g < nT c -> e < 4 -> e2 < 4 -> ALoc (nReq c g) t' ->
  cf (tg s g) e <> 1 -> cf (tg s g) e2 <> 1 -> cf t' e = 1 -> cf t' e2 = 1 ->
  (forall i, i < 4 -> i <> e -> i <> e2 -> cf t' i <> 1 /\ cf (tg s g) i <> 1) ->
  (forall i, i < 4 -> acnt t' i = acnt (tg s g) i) ->
  (g + 1 < nT c -> APair (tg s g) (tg s (g + 1)) -> APair t' (tg s (g + 1))) ->
  (0 < g -> APair (tg s (g - 1)) (tg s g) -> APair (tg s (g - 1)) t') ->
  aok_step c s (set_rdy2 c s g e e2 t').
Proof.
  intros (I1 & I2 & I3 & I4 & I5) Hg He He2 L N1 N2 C1 C2 CO CN PS PL.
  assert (RA : forall e0, e0 < 4 -> cf (tg s g) e0 <> 1 -> rdyAllowed c s g e0 = true).
  { intros e0 H0 NC. apply rdyAllowed_complete. intros w Hw. specialize (I3 g e0 w Hg ltac:(lia) Hw). unfold APkg in I3.
    replace (e0 <? 4) with true in I3 by lia. destruct (Nat.eqb_spec (cf (tg s g) e0) 1); [contradiction|]. cbn [andb] in I3. tauto. }
  unfold set_rdy2. rewrite (RA e), (RA e2) by auto. cbn [andb].
  eexists _, []. split; [reflexivity|]. split; [|reflexivity].
  split; [|split; [|split; [|split; [|exact I5]]]]; cbn [tg stat exe cur].
  - intros g' Hg'. destruct (Nat.eq_dec g' g) as [->|]; [now rewrite fset_eq|rewrite fset_ne by auto; auto].
  - intros g' Hg'. destruct (Nat.eq_dec g' g) as [->|Ne].
    + rewrite fset_eq, fset_ne by lia. auto.
    + rewrite (fset_ne _ _ g') by auto. destruct (Nat.eq_dec (g' + 1) g) as [<-|].
      * rewrite fset_eq. replace (g' + 1 - 1) with g' in PL by lia. apply PL; [lia|auto].
      * rewrite fset_ne by auto. auto.
  - intros g' e' w H1 H2 H3. destruct (Nat.eqb_spec g' g) as [->|]; cbn [andb]; [rewrite fset_eq|rewrite fset_ne by auto; auto].
    replace (w <? nW c) with true by lia. rewrite andb_true_r.
    specialize (I3 g e' w H1 H2 H3). unfold APkg in *.
    destruct (Nat.eqb_spec e' e) as [->|Ne]; cbn [orb].
    { replace (e <? 4) with true in * by lia. rewrite C1. cbn [andb Nat.eqb].
      destruct (Nat.eqb_spec (cf (tg s g) e) 1); [contradiction|]. cbn [andb] in I3. rewrite CN by auto. tauto. }
    destruct (Nat.eqb_spec e' e2) as [->|Ne2].
    { replace (e2 <? 4) with true in * by lia. rewrite C2. cbn [andb Nat.eqb].
      destruct (Nat.eqb_spec (cf (tg s g) e2) 1); [contradiction|]. cbn [andb] in I3. rewrite CN by auto. tauto. }
    destruct (Nat.ltb_spec e' 4).
    { destruct (CO e' ltac:(lia) Ne Ne2) as [O1 O2]. rewrite CN by auto.
      destruct (Nat.eqb_spec (cf t' e') 1); [contradiction|]. destruct (Nat.eqb_spec (cf (tg s g) e') 1); [contradiction|]. exact I3. }
    cbn [andb] in *. do 4 (destruct e' as [|e']; [lia|]). exact I3.
  - destruct I4 as (J1 & J2 & J3).
    assert (ST : forall g' e' w', stat s g' e' w' = IPR -> g' = g -> e' = e \/ e' = e2 -> False).
    { intros g' e' w' H -> H0. pose proof (J3 _ _ _ H) as B. destruct (J2 _ _ _ B) as (_ & B2 & B3 & B4).
      specialize (I3 g e' w' Hg B4 B2). rewrite H in I3. unfold APkg in I3. replace (e' <? 4) with true in I3 by (destruct H0; lia).
      destruct (Nat.eqb_spec (cf (tg s g) e') 1); [destruct H0; subst; contradiction|]. cbn [andb] in I3. destruct I3 as [_ [?|?]]; discriminate. }
    split; [|split]; cbn [stat cur].
    + intros w g' e' H. destruct (J1 _ _ _ H) as (B1 & B2 & B3 & B4). split; auto. destruct (_ && _); auto.
    + intros w g' e' H. destruct (J2 _ _ _ H) as (B1 & B2 & B3 & B4). split; auto.
      destruct (Nat.eqb_spec g' g) as [Eg|]; cbn [andb]; auto.
      destruct (Nat.eqb_spec e' e); cbn [orb andb]; [exfalso; eapply ST; eauto|].
      destruct (Nat.eqb_spec e' e2); cbn [orb andb]; [exfalso; eapply ST; eauto|]. auto.
    + intros g' e' w H. apply J3. destruct (_ && _) eqn:B in H; [discriminate|exact H].
Qed.

Ltac aps := let a := fresh in let b := fresh in intros a b; eapply apair_small; [exact b|cbn; lia..].
Ltac apl := let a := fresh in let b := fresh in intros a b; eapply apair_large; [exact b|cbn; lia..].
Ltac closeAA := right; left; unfold AA; cbn; lia.
Ltac closeAB := right; right; left; unfold AB; cbn; lia.

Ltac apkgs :=
  let e := fresh "e" in let w := fresh "w" in let He := fresh "He" in let Hw := fresh "Hw" in let K := fresh "K" in
  intros e w He Hw; e6 e He; unfold APkg; cbn;
  repeat match goal with [ H : _ /\ _ |- _ ] => destruct H end;
  repeat match goal with [ H : cf _ _ = _ |- _ ] => rewrite H end; cbn; auto.

Lemma arun_blk_inv c mpi s g b : AInv c s -> g < nT c -> aok_step c s (arun_blk c mpi s g b).
Proof.
  intros HI Hg. pose proof HI as (I1 & I2 & I3 & I4 & I5).
  pose proof (I1 g Hg) as L. pose proof (nReq_pos c g) as NP. set (N := nReq c g) in *.
  destruct b; unfold arun_blk.
  - (* Ainit *) gcase; [|now apply aok_skip]. gsplit. unfold cfMax in G.
    assert (LU : AU N (tg s g)) by (clear - L G; openA; [unfold AU; repeat split; auto; intros i Hi; e6 i Hi; auto|lia|lia|lia]).
    destruct LU as (U1 & U2 & U3 & U4 & U5 & U6 & UC).
    pose proof (UC 1 ltac:(lia)) as UC1.
    apply aok_rdy; auto; try lia; try reflexivity.
    + right; left. unfold AA. cbn. lia.
    + intros i Hi Ni Ni2. rewrite UC by lia. split; [|lia]. do 4 (destruct i as [|i]; [cbn; lia|]). lia.
    + aps.
    + apl.
  - (* Aloc0 *) gcase; [|now apply aok_skip]. gsplit. pose proof (allFin_spec _ _ _ _ H0) as AFi.
    assert (AA N (tg s g)) as LA by (clear - L H; openA; [lia|exact L|lia|lia]). clear L. unfold AA in LA; cbv zeta in LA.
    apply aok_with; [exact HI|exact Hg|..].
    + closeAA.
    + aps.
    + apl.
    + apkgs. rewrite AFi by auto. auto.
  - gcase; [|now apply aok_skip]. gsplit. pose proof (allFin_spec _ _ _ _ H0) as AFi.
    assert (AA N (tg s g)) as LA by (clear - L H; openA; [lia|exact L|lia|lia]). clear L. unfold AA in LA; cbv zeta in LA.
    apply aok_with; [exact HI|exact Hg|..].
    + closeAA.
    + aps.
    + apl.
    + apkgs. rewrite AFi by auto. auto.
  - gcase; [|now apply aok_skip]. gsplit. pose proof (allFin_spec _ _ _ _ H0) as AFi.
    assert (AB N (tg s g)) as LA by (clear - L H; openA; [lia|lia|exact L|lia]). clear L. unfold AB in LA; cbv zeta in LA.
    apply aok_with; [exact HI|exact Hg|..].
    + closeAB.
    + aps.
    + apl.
    + apkgs. rewrite AFi by auto. auto.
  - gcase; [|now apply aok_skip]. gsplit. pose proof (allFin_spec _ _ _ _ H0) as AFi.
    assert (AB N (tg s g)) as LA by (clear - L H; openA; [lia|lia|exact L|lia]). clear L. unfold AB in LA; cbv zeta in LA.
    apply aok_with; [exact HI|exact Hg|..].
    + closeAB.
    + aps.
    + apl.
    + apkgs. rewrite AFi by auto. auto.
  - gcase; [|now apply aok_skip]. gsplit.
    assert (AA N (tg s g)) as LA by (clear - L H; openA; [lia|exact L|lia|lia]). clear L. unfold AA in LA; cbv zeta in LA.
    apply aok_with; [exact HI|exact Hg|..].
    + closeAA.
    + aps.
    + apl.
    + apkgs.
  - gcase; [|now apply aok_skip]. gsplit.
    assert (AA N (tg s g)) as LA by (clear - L H; openA; [lia|exact L|lia|lia]). clear L. unfold AA in LA; cbv zeta in LA.
    apply aok_with; [exact HI|exact Hg|..].
    + closeAA.
    + aps.
    + apl.
    + apkgs.
  - (* Ampi *) gcase; [|now apply aok_skip]. gsplit.
    assert (AA N (tg s g)) as LA by (clear - L G; openA; [lia|exact L|lia|lia]). clear L. unfold AA in LA; cbv zeta in LA.
    apply aok_with; [exact HI|exact Hg|..].
    + closeAA.
    + aps.
    + apl.
    + apkgs.
  - (* Aneigh *) gcase; [|now apply aok_skip]. gsplit.
    assert (AA N (tg s g)) as LA by (clear - L H; openA; [lia|exact L|lia|lia]). clear L. unfold AA in LA; cbv zeta in LA.
    apply aok_rdy; auto; try lia; try reflexivity.
    + closeAB.
    + intros i Hi Ni Ni2. destruct i as [|[|i]]; [cbn; lia|cbn; lia|lia].
    + intros Hg1 P. pose proof (avail_right _ _ _ H0 Hg1) as AR. unfold APair in *. cbn. lia.
    + intros Hg1 P. pose proof (avail_left _ _ _ H0 Hg1) as AL. unfold APair in *. cbn. lia.
  - (* Astep *) gcase; [|now apply aok_skip]. gsplit.
    assert (AB N (tg s g)) as LA by (clear - L H H1; openA; [lia|lia|exact L|lia]). clear L. unfold AB in LA; cbv zeta in LA.
    assert (PS : forall t', nTs t' = nTs (tg s g) + 1 -> tpI t' = tpI (tg s g) -> tpS t' = tpS (tg s g) -> duI t' = duI (tg s g) ->
       duS t' = duS (tg s g) -> cf t' 0 <> 4 -> g + 1 < nT c -> APair (tg s g) (tg s (g + 1)) -> APair t' (tg s (g + 1))).
    { intros t' E1 E2 E3 E4 E5 E6 Hg1 P. pose proof (consumed_right _ _ _ H0 Hg1) as CR. unfold APair in *.
      rewrite E1, E2, E3, E4, E5. 
      assert (nTs (tg s g) + 1 <= 2 * duI (tg s (g + 1)) + 1 /\ nTs (tg s g) + 1 <= 2 * duS (tg s (g + 1)) + 1).
      { clear - P CR LA. pose proof (Nat.div_mod (nTs (tg s g)) 2 ltac:(lia)). lia. }
      lia. }
    assert (PL : forall t', nTs t' = nTs (tg s g) + 1 -> tpI t' = tpI (tg s g) -> tpS t' = tpS (tg s g) -> duI t' = duI (tg s g) ->
       duS t' = duS (tg s g) -> cf t' 0 <> 4 -> 0 < g -> APair (tg s (g - 1)) (tg s g) -> APair (tg s (g - 1)) t').
    { intros t' E1 E2 E3 E4 E5 E6 Hg1 P. pose proof (consumed_left _ _ _ H0 Hg1) as CR. unfold APair in *.
      rewrite E1, E2, E3, E4, E5. lia. }
    destruct (finished c g (inc_nTs (tg s g))) eqn:F; cbn [negb].
    + unfold finished in F. apply Nat.eqb_eq in F. change (nReqFull c g + maxDiv c g) with N in F. cbn [nTs inc_nTs] in F.
      apply aok_with; [exact HI|exact Hg|..].
      * right; right; right. unfold AF. cbn [nTs tpI tpS duI duS inc_nTs set_cf2 set_cf]. repeat (split; [lia|]).
        intros i Hi. e6 i Hi; reflexivity.
      * apply PS; try reflexivity; cbn; lia.
      * apply PL; try reflexivity; cbn; lia.
      * apkgs.
    + unfold finished in F. apply Nat.eqb_neq in F. change (nReqFull c g + maxDiv c g) with N in F. cbn [nTs inc_nTs] in F.
      apply aok_rdy; auto; try lia; try reflexivity.
      * closeAA.
      * intros i Hi Ni Ni2. do 2 (destruct i as [|i]; [cbn; lia|]). destruct i as [|[|i]]; [cbn; lia|cbn; lia|lia].
      * apply PS; try reflexivity; cbn; lia.
      * apply PL; try reflexivity; cbn; lia.
  - (* Acount *) gcase; [|now apply aok_skip]. eexists _, []. split; [reflexivity|]. split; [exact HI|reflexivity].
Qed.

(** ** positions of the instructions *)
Lemma anth_chunks (l : list ablk) n a i :
  nth_error (flat_map (fun g => map (AI g) l) (seq a n)) i =
  if i <? n * length l then option_map (AI (a + i / length l)) (nth_error l (i mod length l)) else None.
Proof.
  revert a i. induction n as [|n IH]; intros a i; cbn [seq flat_map].
  - now destruct i.
  - destruct (Nat.ltb_spec i (length l)) as [H|H].
    + rewrite nth_error_app1 by (rewrite map_length; auto).
      replace (i <? S n * length l) with true by (symmetry; apply Nat.ltb_lt; nia).
      rewrite nth_error_map, Nat.div_small, Nat.mod_small by auto. now rewrite Nat.add_0_r.
    + rewrite nth_error_app2 by (rewrite map_length; auto). rewrite map_length, IH.
      destruct (Nat.eq_dec (length l) 0) as [E|E].
      { rewrite E in *. rewrite !Nat.mul_0_r. reflexivity. }
      replace (i <? S n * length l) with (i - length l <? n * length l).
      2: { destruct (Nat.ltb_spec (i - length l) (n * length l)), (Nat.ltb_spec i (S n * length l)); auto; nia. }
      assert (E1 : i = (i - length l) + 1 * length l) by lia.
      assert (E2 : i / length l = (i - length l) / length l + 1) by (rewrite E1 at 1; rewrite Nat.div_add by auto; reflexivity).
      assert (E3 : i mod length l = (i - length l) mod length l) by (rewrite E1 at 1; rewrite Nat.mod_add by auto; reflexivity).
      rewrite E2, E3. replace (a + ((i - length l) / length l + 1)) with (S a + (i - length l) / length l) by lia.
      reflexivity.
Qed.

Lemma achunks_len (l : list ablk) n a : length (flat_map (fun g => map (AI g) l) (seq a n)) = n * length l.
Proof. revert a. induction n; intros; cbn; auto. rewrite app_length, map_length, IHn. reflexivity. Qed.

Lemma anth_prog c i :
  nth_error (aprog c) i =
  if i <? 7 * nT c then option_map (AI (i / 7)) (nth_error aloop1 (i mod 7))
  else if i =? 7 * nT c then Some AIzero
  else if i <? 11 * nT c + 1 then option_map (AI ((i - (7 * nT c + 1)) / 4)) (nth_error aloop2 ((i - (7 * nT c + 1)) mod 4))
  else if i =? 11 * nT c + 1 then Some AIend else None.
Proof.
  unfold aprog.
  assert (L1 : length (flat_map (fun g => map (AI g) aloop1) (seq 0 (nT c))) = 7 * nT c) by (rewrite achunks_len; cbn; lia).
  assert (L2 : length (flat_map (fun g => map (AI g) aloop2) (seq 0 (nT c))) = 4 * nT c) by (rewrite achunks_len; cbn; lia).
  destruct (Nat.ltb_spec i (7 * nT c)).
  { rewrite nth_error_app1 by lia. rewrite anth_chunks. cbn [length aloop1].
    replace (i <? nT c * 7) with true by lia. reflexivity. }
  rewrite nth_error_app2 by lia. rewrite L1.
  destruct (Nat.eqb_spec i (7 * nT c)).
  { subst. rewrite Nat.sub_diag. reflexivity. }
  replace (i - 7 * nT c) with (S (i - (7 * nT c + 1))) by lia. cbn [nth_error app].
  destruct (Nat.ltb_spec i (11 * nT c + 1)).
  { rewrite nth_error_app1 by lia. rewrite anth_chunks. cbn [length aloop2].
    replace (i - (7 * nT c + 1) <? nT c * 4) with true by lia. reflexivity. }
  rewrite nth_error_app2 by lia. rewrite L2.
  destruct (Nat.eqb_spec i (11 * nT c + 1)).
  { subst. replace (11 * nT c + 1 - (7 * nT c + 1) - 4 * nT c) with 0 by lia. reflexivity. }
  destruct (i - (7 * nT c + 1) - 4 * nT c) as [|k] eqn:E; [lia|]. cbn. now destruct k.
Qed.

Lemma anth_prog_group c i g b : nth_error (aprog c) i = Some (AI g b) -> g < nT c /\ i < 11 * nT c + 1 /\ i <> 7 * nT c.
Proof.
  rewrite anth_prog. intros H.
  destruct (Nat.ltb_spec i (7 * nT c)).
  - destruct (nth_error aloop1 (i mod 7)); [|discriminate]. cbn [option_map] in H. assert (g = i / 7) as -> by congruence.
    split; [|lia]. apply Nat.div_lt_upper_bound; lia.
  - destruct (Nat.eqb_spec i (7 * nT c)); [discriminate|].
    destruct (Nat.ltb_spec i (11 * nT c + 1)).
    + destruct (nth_error aloop2 _); [|discriminate]. cbn [option_map] in H.
      assert (g = (i - (7 * nT c + 1)) / 4) as -> by congruence.
      split; [|lia]. apply Nat.div_lt_upper_bound; lia.
    + destruct (Nat.eqb_spec i (11 * nT c + 1)); discriminate.
Qed.

Lemma anth_prog_count c i g b : 7 * nT c < i -> nth_error (aprog c) i = Some (AI g b) ->
  g = (i - (7 * nT c + 1)) / 4 /\
  (b = Acount -> (S i - (7 * nT c + 1)) / 4 = g + 1) /\
  (b <> Acount -> (S i - (7 * nT c + 1)) / 4 = g).
Proof.
  intros Hi. rewrite anth_prog. intros H.
  replace (i <? 7 * nT c) with false in H by lia. replace (i =? 7 * nT c) with false in H by lia.
  destruct (Nat.ltb_spec i (11 * nT c + 1)).
  2: { destruct (Nat.eqb_spec i (11 * nT c + 1)); discriminate. }
  replace (S i - (7 * nT c + 1)) with (S (i - (7 * nT c + 1))) by lia.
  set (k := i - (7 * nT c + 1)) in *.
  destruct (nth_error aloop2 (k mod 4)) as [b'|] eqn:E; [|discriminate]. cbn [option_map] in H.
  assert (g = k / 4) as -> by congruence. assert (b' = b) as -> by congruence. clear H.
  split; [reflexivity|].
  pose proof (Nat.div_mod k 4 ltac:(lia)) as DM. pose proof (Nat.mod_upper_bound k 4 ltac:(lia)) as MB.
  assert (SK : forall d, S k / 4 = d <-> 4 * d <= S k < 4 * d + 4).
  { intros d. split.
    - intros <-. pose proof (Nat.div_mod (S k) 4 ltac:(lia)). pose proof (Nat.mod_upper_bound (S k) 4 ltac:(lia)). lia.
    - intros B. symmetry. apply (Nat.div_unique _ _ _ (S k - 4 * d)); lia. }
  rewrite !SK.
  set (m := k mod 4) in *. clearbody m.
  split; intros Hb.
  - do 4 (destruct m as [|m]; cbn in E; [injection E as <-; try discriminate; lia|]). lia.
  - do 3 (destruct m as [|m]; [lia|]). destruct m; [cbn in E; injection E as <-; congruence|lia].
Qed.

(** ** the end of the interval *)

Definition adone (c : cfg) (s : rst) (g : nat) : bool := finished c g (tg s g).

Lemma adone_AF c s g : AInv c s -> g < nT c -> adone c s g = true -> AF (nReq c g) (tg s g).
Proof.
  intros (I1 & _) Hg D. unfold adone, finished in D. apply Nat.eqb_eq in D. change (nReqFull c g + maxDiv c g) with (nReq c g) in D.
  pose proof (I1 g Hg) as L. pose proof (nReq_pos c g). destruct L as [L|[L|[L|L]]]; auto; unfold AU, AA, AB in L; cbv zeta in L; lia.
Qed.

Lemma adone_blk c mpi s g b s' ev : AInv c s -> g < nT c -> adone c s g = true -> arun_blk c mpi s g b = ANext s' ev -> tg s' = tg s.
Proof.
  intros HI Hg D E. destruct (adone_AF _ _ _ HI Hg D) as (_ & _ & _ & _ & _ & K).
  pose proof (K 0 ltac:(lia)) as K0. pose proof (K 1 ltac:(lia)) as K1. pose proof (K 2 ltac:(lia)) as K2.
  pose proof (K 3 ltac:(lia)) as K3. pose proof (K 4 ltac:(lia)) as K4. pose proof (K 5 ltac:(lia)) as K5.
  destruct b; unfold arun_blk, cfe in E; rewrite ?K0, ?K1, ?K2, ?K3, ?K4, ?K5 in E; cbn in E; try (now injection E as <- <-).
  destruct (finished c g (tg s g)); now injection E as <- <-.
Qed.

Lemma ablk_frame c mpi s g b s' ev : arun_blk c mpi s g b = ANext s' ev ->
  (forall g', g' <> g -> tg s' g' = tg s g') /\ fin s' = fin s /\ (b <> Acount -> nFin s' = nFin s).
Proof.
  intros H. destruct b; unfold arun_blk, set_rdy2 in H;
    repeat match type of H with (if ?x then _ else _) = _ => destruct x end;
    try discriminate; injection H as <- <-; cbn; repeat apply conj; auto; try congruence; intros; now rewrite fset_ne.
Qed.

Definition AFinInv (c : cfg) (s : rst) : Prop :=
  (7 * nT c < pc s -> nFin s <= length (filter (adone c s) (seq 0 ((pc s - (7 * nT c + 1)) / 4)))) /\
  (fin s = true -> forall g, g < nT c -> adone c s g = true) /\
  pc s <= 11 * nT c + 1.

Lemma asched_inv c mpi s : AInv c s -> AFinInv c s ->
  match asched_step c mpi s with
  | ANext s' _ => AInv c s' /\ AFinInv c s'
  | AStuck => fin s = true
  | AFail => False
  end.
Proof.
  intros HI (HF1 & HF2 & HF3). unfold asched_step. destruct (fin s) eqn:Ef; auto.
  destruct (nth_error (aprog c) (pc s)) as [[g b| |]|] eqn:En.
  - destruct (anth_prog_group _ _ _ _ En) as (Hg & Hp1 & Hp2).
    destruct (arun_blk_inv c mpi s g b HI Hg) as (s' & ev & E & HI' & Hpc).
    rewrite E. split; [exact HI'|].
    destruct (ablk_frame _ _ _ _ _ _ _ E) as (E0 & E1 & E2).
    assert (MON : forall g', g' < nT c -> adone c s g' = true -> adone c s' g' = true).
    { intros g' Hg' D. unfold adone. destruct (Nat.eq_dec g' g) as [->|Ne].
      - rewrite (adone_blk _ _ _ _ _ _ _ HI Hg D E). exact D.
      - rewrite (E0 g' Ne). exact D. }
    assert (PCE : forall g', adone c (set_pc s' (S (pc s'))) g' = adone c s' g') by reflexivity.
    unfold AFinInv. cbn [pc fin nFin set_pc]. rewrite Hpc. split; [|split].
    + intros Hp. change (adone c (set_pc s' (S (pc s)))) with (adone c s').
      assert (Hp' : 7 * nT c < pc s) by lia. specialize (HF1 Hp').
      destruct (anth_prog_count _ _ _ _ Hp' En) as (G1 & G2 & G3).
      assert (BS : forall k, k <= nT c -> length (filter (adone c s) (seq 0 k)) <= length (filter (adone c s') (seq 0 k))).
      { intros k Hk. apply filter_len_mono. intros x Hx. apply in_seq in Hx. apply MON. lia. }
      rewrite <- G1 in HF1. pose proof (BS g ltac:(lia)) as BG.
      destruct b; try (rewrite E2, G3 by discriminate; lia).
      rewrite G2 by reflexivity. replace (g + 1) with (S g) by lia.
      rewrite seq_S, filter_app, app_length. cbn [filter plus].
      unfold arun_blk in E. destruct (finished c g (tg s g)) eqn:D.
      * injection E as <- <-. cbn [nFin] in *. unfold adone at 2. cbn [tg]. rewrite D. cbn [length].
        change (adone c _) with (adone c s). lia.
      * injection E as <- <-. lia.
    + rewrite E1. intros K. congruence.
    + lia.
  - split; [exact HI|].
    assert (Ep : pc s = 7 * nT c).
    { rewrite anth_prog in En. destruct (Nat.ltb_spec (pc s) (7 * nT c)); [destruct (nth_error aloop1 _); discriminate|].
      destruct (Nat.eqb_spec (pc s) (7 * nT c)); auto.
      destruct (Nat.ltb_spec (pc s) (11 * nT c + 1)); [destruct (nth_error aloop2 _); discriminate|].
      destruct (Nat.eqb_spec (pc s) (11 * nT c + 1)); discriminate. }
    unfold AFinInv. cbn [pc tg fin nFin]. split; [intros; lia|]. split; [congruence|lia].
  - split; [exact HI|].
    assert (Ep : pc s = 11 * nT c + 1).
    { rewrite anth_prog in En. destruct (Nat.ltb_spec (pc s) (7 * nT c)); [destruct (nth_error aloop1 _); discriminate|].
      destruct (Nat.eqb_spec (pc s) (7 * nT c)); [discriminate|].
      destruct (Nat.ltb_spec (pc s) (11 * nT c + 1)); [destruct (nth_error aloop2 _); discriminate|].
      destruct (Nat.eqb_spec (pc s) (11 * nT c + 1)); [auto|discriminate]. }
    unfold AFinInv. cbn [pc tg fin nFin]. split; [lia|]. split; [|lia].
    intros Hn g Hg. apply Nat.eqb_eq in Hn.
    assert (Hp' : 7 * nT c < pc s) by lia. specialize (HF1 Hp').
    rewrite Ep in HF1. replace (11 * nT c + 1 - (7 * nT c + 1)) with (nT c * 4) in HF1 by lia.
    rewrite Nat.div_mul in HF1 by lia. rewrite Hn in HF1.
    apply (filter_full (adone c s) (seq 0 (nT c))); [rewrite seq_length; auto|apply in_seq; lia].
  - exfalso. rewrite anth_prog in En. destruct (Nat.ltb_spec (pc s) (7 * nT c)).
    + assert (HL : pc s mod 7 < length aloop1) by (apply (Nat.mod_upper_bound _ 7); lia).
      apply nth_error_Some in HL. destruct (nth_error aloop1 _); [discriminate|congruence].
    + destruct (Nat.eqb_spec (pc s) (7 * nT c)); [discriminate|].
      destruct (Nat.ltb_spec (pc s) (11 * nT c + 1)).
      * assert (HL : (pc s - (7 * nT c + 1)) mod 4 < length aloop2) by (apply (Nat.mod_upper_bound _ 4); lia).
        apply nth_error_Some in HL. destruct (nth_error aloop2 _); [discriminate|congruence].
      * destruct (Nat.eqb_spec (pc s) (11 * nT c + 1)); [discriminate|lia].
Qed.

(** ** workers *)

Definition frame (s s' : rst) : Prop := tg s' = tg s /\ fin s' = fin s /\ nFin s' = nFin s /\ pc s' = pc s.

Lemma frame_fin c s s' : frame s s' -> AFinInv c s -> AFinInv c s'.
Proof. intros (E1 & E2 & E3 & E4). unfold AFinInv, adone. rewrite E1, E2, E3, E4. auto. Qed.

Lemma aget_inv c w g e s : AInv c s ->
  match lift (get_step c w g e s) with ANext s' _ => AInv c s' /\ frame s s' | AStuck => True | AFail => False end.
Proof.
  intros (I1 & I2 & I3 & I4 & I5). unfold get_step.
  destruct (negb _) eqn:B; [exact Logic.I|]. apply negb_false_iff in B.
  apply andb_prop in B as [B B3]. apply andb_prop in B as [B1 B2].
  destruct (cur s w) eqn:C; try exact Logic.I.
  destruct (status_eqb (stat s g e w) RDY) eqn:E; [|exact Logic.I]. apply status_eqb_iff in E.
  cbn [lift]. split; [|repeat split].
  split; [exact I1|]. split; [exact I2|]. split; [exact I3|]. split; [|exact I5].
  destruct I4 as (J1 & J2 & J3). repeat apply conj; cbn.
  - intros w0 g0 e0 H. unfold fset in H. destruct (Nat.eqb_spec w0 w) as [->|]; [|apply J1; auto].
    injection H as <- <-. repeat apply conj; auto; lia.
  - intros w0 g0 e0 H. unfold fset in H. destruct (Nat.eqb_spec w0 w) as [->|]; [discriminate|apply J2; auto].
  - intros g0 e0 w0 H. unfold fset. destruct (Nat.eqb_spec w0 w) as [->|]; [|auto].
    apply J3 in H. congruence.
Qed.

Lemma astart_inv c w s : AInv c s ->
  match lift (start_step c w s) with ANext s' _ => AInv c s' /\ frame s s' | AStuck => True | AFail => False end.
Proof.
  intros (I1 & I2 & I3 & I4 & I5). unfold start_step.
  destruct (cur s w) as [|g e|g e] eqn:C; try exact Logic.I.
  destruct I4 as (J1 & J2 & J3). destruct (J1 _ _ _ C) as (K1 & K2 & K3 & K4).
  rewrite K1. cbn [status_eqb negb lift]. split; [|repeat split].
  split; [exact I1|]. split; [exact I2|]. split; [|split; [|exact I5]].
  - intros g0 e0 w0 H1 H2 H3. cbn.
    destruct (set_stat_spec s g e w IPR g0 e0 w0) as [->|(-> & -> & -> & ->)]; auto.
    specialize (I3 g e w H1 H2 H3). rewrite K1 in I3. unfold APkg in *.
    destruct ((e <? 4) && (cf (tg s g) e =? 1)); auto. destruct I3 as [_ [?|?]]; discriminate.
  - repeat apply conj; cbn.
    + intros w0 g0 e0 H. unfold fset in H. destruct (Nat.eqb_spec w0 w) as [->|]; [discriminate|].
      rewrite set_stat_ne by congruence. auto.
    + intros w0 g0 e0 H. unfold fset in H. destruct (Nat.eqb_spec w0 w) as [->|].
      * injection H as <- <-. rewrite set_stat_eq. auto.
      * rewrite set_stat_ne by congruence. auto.
    + intros g0 e0 w0 H. unfold fset. destruct (Nat.eqb_spec w0 w) as [->|].
      * destruct (set_stat_spec s g e w IPR g0 e0 w) as [E|(-> & -> & _ & _)]; auto.
        rewrite E in H. apply J3 in H. congruence.
      * rewrite set_stat_ne in H by congruence. auto.
Qed.

Lemma adone_inv c w s : AInv c s ->
  match lift (done_step c w s) with ANext s' _ => AInv c s' /\ frame s s' | AStuck => True | AFail => False end.
Proof.
  intros (I1 & I2 & I3 & I4 & I5). unfold done_step.
  destruct (cur s w) as [|g e|g e] eqn:C; try exact Logic.I.
  destruct I4 as (J1 & J2 & J3). destruct (J2 _ _ _ C) as (K1 & K2 & K3 & K4).
  rewrite K1. cbn [status_eqb negb lift]. split; [|repeat split].
  pose proof (I3 g e w K3 K4 K2) as PK. rewrite K1 in PK. unfold APkg in PK.
  destruct ((e <? 4) && (cf (tg s g) e =? 1)) eqn:CE; [|destruct PK as [_ [?|?]]; discriminate].
  assert (XN : e < 2 -> exe s g e w = nTs (tg s g)).
  { intros He. apply andb_prop in CE as [_ CE]. apply Nat.eqb_eq in CE. pose proof (I1 g K3) as L. clear - PK CE L He.
    rewrite PK. destruct e as [|[|e]]; [| |lia]; openA; cbn in *; lia. }
  split; [exact I1|]. split; [exact I2|]. split; [|split].
  - intros g0 e0 w0 H1 H2 H3. cbn [tg stat exe].
    destruct (Nat.eqb_spec g0 g) as [->|]; [|rewrite set_stat_ne by congruence; apply I3; auto].
    destruct (Nat.eqb_spec e0 e) as [->|]; [|rewrite set_stat_ne by congruence; apply I3; auto].
    destruct (Nat.eqb_spec w0 w) as [->|]; [|rewrite set_stat_ne by congruence; apply I3; auto].
    cbn [andb]. rewrite set_stat_eq. unfold APkg. rewrite CE. now f_equal.
  - repeat apply conj; cbn [cur stat].
    + intros w0 g0 e0 H. unfold fset in H. destruct (Nat.eqb_spec w0 w) as [->|]; [discriminate|].
      rewrite set_stat_ne by congruence. auto.
    + intros w0 g0 e0 H. unfold fset in H. destruct (Nat.eqb_spec w0 w) as [->|]; [discriminate|].
      rewrite set_stat_ne by congruence. auto.
    + intros g0 e0 w0 H. unfold fset. destruct (Nat.eqb_spec w0 w) as [->|].
      * destruct (set_stat_spec s g e w FIN g0 e0 w) as [E|(-> & -> & _ & E)]; [|congruence].
        rewrite E in H. pose proof (J3 _ _ _ H) as H'. rewrite C in H'. injection H' as <- <-.
        rewrite set_stat_eq in E. congruence.
      * rewrite set_stat_ne in H by congruence. auto.
  - intros g0 e0 w0 H1 H2 H3. cbn [buf exe].
    destruct (Nat.ltb_spec e 2) as [He|He].
    + destruct (Nat.eqb_spec g0 g) as [->|]; [|apply I5; auto].
      destruct (Nat.eqb_spec e0 e) as [->|]; [|apply I5; auto].
      destruct (Nat.eqb_spec w0 w) as [->|]; [|apply I5; auto].
      cbn [andb]. rewrite <- (XN He). apply local_bufs_ok, I5; auto.
    + replace (e0 =? e) with false by lia. rewrite andb_false_r. cbn [andb]. apply I5; auto.
Qed.

Lemma ainit_inv c b0 sb0 : AInv c (init b0 sb0) /\ AFinInv c (init b0 sb0).
Proof.
  split.
  - split; [|split; [|split; [|split]]].
    + intros g Hg. left. unfold AU. cbn. repeat (split; [auto using nReq_pos|]). auto.
    + intros g Hg. unfold APair. cbn; unfold cfMax. repeat apply conj; lia.
    + intros g e w H1 H2 H3. unfold APkg. cbn. rewrite andb_false_r. split; auto.
      destruct e as [|[|[|[|e]]]]; reflexivity.
    + repeat apply conj; cbn; discriminate.
    + intros g e w H1 H2 H3. exact Logic.I.
  - unfold AFinInv, init. cbn [pc nFin fin]. repeat apply conj; try lia; discriminate.
Qed.

Lemma astep_inv c s l : AInv c s -> AFinInv c s ->
  match astep c s l with
  | ANext s' _ => AInv c s' /\ AFinInv c s'
  | AStuck => True
  | AFail => False
  end.
Proof.
  intros HI HF. destruct l as [mpi|w g e|w|w]; cbn [astep].
  - pose proof (asched_inv c mpi s HI HF) as H. destruct (asched_step c mpi s); auto.
  - pose proof (aget_inv c w g e s HI) as H. destruct (lift _); auto. destruct H. eauto using frame_fin.
  - pose proof (astart_inv c w s HI) as H. destruct (lift _); auto. destruct H. eauto using frame_fin.
  - pose proof (adone_inv c w s HI) as H. destruct (lift _); auto. destruct H. eauto using frame_fin.
Qed.

Lemma areach_inv c s : areach c s -> AInv c s /\ AFinInv c s.
Proof.
  induction 1 as [b0 sb0|s l s' ev R [IH1 IH2] E]; [apply ainit_inv|].
  pose proof (astep_inv c s l IH1 IH2) as H. now rewrite E in H.
Qed.
