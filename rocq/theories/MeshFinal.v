(** Proofs about the constructor of meshes: from the connectivity to the finished mesh. *)
From Coq Require Import QArith Qabs Sorting.Sorted Sorting.Permutation Lqa.
From Verif Require Import Util Partition MeshConn MeshSpec MeshSort MeshFaces MeshNorm MeshNormEl MeshTypes MeshHex MeshOrder MeshAll MeshPer.
Open Scope nat_scope.

(** ** Reversal of the elements of periodic faces *)

Lemma reverse_ok : forall gt l, NoDup gt -> (forall f, In f gt -> f < length l) ->
  exists l', reverse gt l = Ok l' /\ length l' = length l /\
    forall f p, nth_error l f = Some p -> nth_error l' f = Some (if in_dec Nat.eq_dec f gt then revFaEl p else p).
Proof.
  induction gt as [|g gt IH]; intros l ND B.
  - exists l. split; [reflexivity|]. split; [auto|]. intros f p H. destruct (in_dec _ _ _) as [[]|]; auto.
  - apply NoDup_cons_iff in ND. destruct ND as [Ng ND]. cbn [reverse].
    assert (Hg : g < length l) by (apply B; left; auto).
    destruct (nth_error l g) as [q|] eqn:Eq; [|apply nth_error_None in Eq; lia].
    rewrite (rd_some _ _ _ Eq). cbn [bind]. rewrite wr_ok by auto. cbn [bind].
    destruct (IH (upd l g (revFaEl q)) ND) as (l' & E & L & N).
    { intros f Hf. rewrite length_upd. apply B. right; auto. }
    exists l'. split; [exact E|]. rewrite length_upd in L. split; [exact L|]. intros f p Hp.
    destruct (Nat.eq_dec f g) as [->|Nf].
    + assert (p = q) by congruence. subst p. rewrite (N g (revFaEl q)) by (apply nth_error_upd_eq; auto).
      destruct (in_dec Nat.eq_dec g gt) as [X|X]; [contradiction|]. destruct (in_dec Nat.eq_dec g (g :: gt)) as [Y|Y]; [auto|exfalso; apply Y; left; auto].
    + rewrite (N f p) by (rewrite nth_error_upd_ne; auto).
      destruct (in_dec Nat.eq_dec f gt) as [X|X], (in_dec Nat.eq_dec f (g :: gt)) as [Y|Y]; auto.
      * exfalso. apply Y. right; auto.
      * exfalso. destruct Y as [Y|Y]; auto.
Qed.

(** ** Position of faces before and after the normalization *)

Section Final.
Variable tol : Q.
Variable ty : elType.
Variable crds : list pt.
Variable elVe : list (list nat).
Variable elFa : list (list nat).
Variable elFaEl : list (list (option nat)).
Variable m : mesh.
Hypothesis LV : length elFa = length elVe.
Hypothesis LA : length elFaEl = length elVe.
Hypothesis LM : length (mEls m) = length elVe.
Hypothesis OKE : forall el ve fa ad, nth_error elVe el = Some ve -> nth_error elFa el = Some fa -> nth_error elFaEl el = Some ad ->
  exists e, nth_error (mEls m) el = Some e /\ elOk tol ty crds (mFaVe m) ve fa ad e.
Hypothesis LR : forall el fa, nth_error elFa el = Some fa -> length fa = nElFas ty.
Hypothesis LR' : forall el ad, nth_error elFaEl el = Some ad -> length ad = nElFas ty.

Lemma rows el e : nth_error (mEls m) el = Some e -> exists ve fa ad, nth_error elVe el = Some ve /\ nth_error elFa el = Some fa /\
  nth_error elFaEl el = Some ad /\ elOk tol ty crds (mFaVe m) ve fa ad e.
Proof.
  intros H. assert (Hl : el < length elVe) by (rewrite <- LM; apply nth_error_Some; congruence).
  destruct (nth_error elVe el) as [ve|] eqn:H1; [|apply nth_error_None in H1; lia].
  destruct (nth_error elFa el) as [fa|] eqn:H2; [|apply nth_error_None in H2; lia].
  destruct (nth_error elFaEl el) as [ad|] eqn:H3; [|apply nth_error_None in H3; lia].
  destruct (OKE el ve fa ad H1 H2 H3) as (e' & E & O). assert (e' = e) by congruence. subst. exists ve, fa, ad. auto.
Qed.

Lemma nth_error_comb_in {A B} (a : list A) (b : list B) x y : length a = length b ->
  (In (x, y) (combine a b) <-> exists i, nth_error a i = Some x /\ nth_error b i = Some y).
Proof.
  intros L. split.
  - intros H. apply In_nth_error in H. destruct H as [i H]. rewrite nth_error_comb in H by auto. exists i.
    destruct (nth_error a i), (nth_error b i); inversion H; auto.
  - intros (i & H1 & H2). apply (nth_error_In _ i). rewrite nth_error_comb by auto. rewrite H1, H2. reflexivity.
Qed.

Lemma final_iff el f o : (exists i, elFace m el i = Some f /\ elAdj m el i = Some o) <-> exists k, get2 elFa el k = Some f /\ get2 elFaEl el k = Some o.
Proof.
  unfold elFace, elAdj, get2. destruct (nth_error (mEls m) el) as [e|] eqn:Ee.
  - destruct (rows el e Ee) as (ve & fa & ad & H1 & H2 & H3 & O). rewrite H2, H3.
    destruct O as (_ & _ & L1 & L2 & P & _). pose proof (LR _ _ H2). pose proof (LR' _ _ H3).
    rewrite <- (nth_error_comb_in (fasOf e) (adsOf e)) by congruence. rewrite <- (nth_error_comb_in fa ad) by congruence.
    split; apply Permutation_in; [apply Permutation_sym|]; exact P.
  - apply nth_error_None in Ee. rewrite (proj2 (nth_error_None elFa el)) by lia. split; intros (k & H & _); discriminate.
Qed.

Lemma final_face el f : (exists i, elFace m el i = Some f) <-> exists k, get2 elFa el k = Some f.
Proof.
  split.
  - intros [i H]. unfold elFace in H. destruct (nth_error (mEls m) el) as [e|] eqn:Ee; [|discriminate].
    destruct (rows el e Ee) as (ve & fa & ad & H1 & H2 & H3 & O). destruct O as (_ & _ & L1 & L2 & _).
    destruct (nth_error (adsOf e) i) as [o|] eqn:Ea; [|apply nth_error_None in Ea; assert (i < length (fasOf e)) by (apply nth_error_Some; congruence); lia].
    destruct (proj1 (final_iff el f o)) as (k & Hk & _); [|eauto]. exists i. unfold elFace, elAdj. rewrite Ee. auto.
  - intros [k H]. unfold get2 in H. destruct (nth_error elFa el) as [fa|] eqn:Ef; [|discriminate].
    assert (el < length elFa) by (apply nth_error_Some; congruence).
    destruct (nth_error elFaEl el) as [ad|] eqn:Ea; [|apply nth_error_None in Ea; lia].
    assert (k < length fa) by (apply nth_error_Some; congruence). pose proof (LR _ _ Ef). pose proof (LR' _ _ Ea).
    destruct (nth_error ad k) as [o|] eqn:Eo; [|apply nth_error_None in Eo; lia].
    destruct (proj2 (final_iff el f o)) as (i & Hi & _); [|eauto]. exists k. unfold get2. rewrite Ef, Ea. auto.
Qed.

Lemma final_adj el i f : elFace m el i = Some f -> exists o, elAdj m el i = Some o.
Proof.
  unfold elFace, elAdj. destruct (nth_error (mEls m) el) as [e|] eqn:Ee; [|discriminate]. intros H.
  destruct (rows el e Ee) as (ve & fa & ad & _ & _ & _ & O). destruct O as (_ & _ & L1 & L2 & _).
  destruct (nth_error (adsOf e) i) eqn:Ea; [eauto|]. apply nth_error_None in Ea. assert (i < length (fasOf e)) by (apply nth_error_Some; congruence). lia.
Qed.

Lemma final_inj el i i' f : elFace m el i = Some f -> elFace m el i' = Some f -> i = i'.
Proof.
  unfold elFace. destruct (nth_error (mEls m) el) as [e|] eqn:Ee; [|discriminate]. intros H H'.
  destruct (rows el e Ee) as (ve & fa & ad & _ & _ & _ & O). destruct O as (_ & _ & _ & _ & _ & _ & ND).
  eapply NoDup_nth_error; [exact ND|apply nth_error_Some; congruence|congruence].
Qed.

Lemma map_fst_combine {A B} (a : list A) (b : list B) : length a = length b -> map fst (combine a b) = a.
Proof. revert b. induction a as [|x a IH]; intros [|y b] L; cbn in *; try discriminate; auto. f_equal. auto. Qed.

Lemma pre_inj el k k' f : get2 elFa el k = Some f -> get2 elFa el k' = Some f -> k = k'.
Proof.
  unfold get2. destruct (nth_error elFa el) as [fa|] eqn:Ef; [|discriminate]. intros H H'.
  assert (el < length elFa) by (apply nth_error_Some; congruence).
  destruct (nth_error (mEls m) el) as [e|] eqn:Ee; [|apply nth_error_None in Ee; lia].
  destruct (rows el e Ee) as (ve & fa' & ad & H1 & H2 & H3 & O). assert (fa' = fa) by congruence. subst fa'.
  destruct O as (_ & _ & L1 & L2 & P & _ & ND). pose proof (LR _ _ H2). pose proof (LR' _ _ H3).
  apply (Permutation_map fst) in P. rewrite !map_fst_combine in P by congruence.
  assert (NDf : NoDup fa) by (eapply Permutation_NoDup; [apply Permutation_sym; exact P|exact ND]).
  eapply NoDup_nth_error; [exact NDf|apply nth_error_Some; congruence|congruence].
Qed.

(** ** Adjacency *)
Variable faEl0 : list (nat * option nat).      (* elements of the faces without periodic boundaries *)
Variable elFaEl0 : list (list (option nat)).
Variable par : nat -> option nat.
Definition own0 (f : nat) : nat := fst (nth f faEl0 (0, None)).
Hypothesis ADJ0 : forall el k f, get2 elFa el k = Some f -> exists o, get2 elFaEl0 el k = Some o /\ faceAt faEl0 elFa elFaEl0 el k f o.
Hypothesis ADJ : forall el k f o, get2 elFa el k = Some f -> get2 elFaEl0 el k = Some o ->
  get2 elFaEl el k = Some (match par f with Some g => Some (own0 g) | None => o end).
Hypothesis PARb : forall f g, par f = Some g -> snd (nth f faEl0 (0, None)) = None /\ par g = Some f /\ f <> g /\ (exists el k, get2 elFa el k = Some g).
Hypothesis FEL : forall f p, nth_error faEl0 f = Some p ->
  nth_error (mFaEl m) f = Some (match par f with Some g => (own0 f, Some (own0 g)) | None => sortFaEl p end).

Lemma final_adjOk el i f o : elFace m el i = Some f -> elAdj m el i = Some o -> par f = None -> adjOk m el i f o.
Proof.
  intros H1 H2 Hp. destruct (proj1 (final_iff el f o)) as (k & K1 & K2); [eauto|].
  destruct (ADJ0 _ _ _ K1) as (o' & K3 & F). assert (K4 := ADJ _ _ _ _ K1 K3). rewrite Hp in K4. assert (o' = o) by congruence. subst o'. clear K4.
  assert (UU : forall el' i', elFace m el' i' = Some f -> exists k', get2 elFa el' k' = Some f) by (intros; apply final_face; eauto).
  destruct o as [el'|]; cbn [faceAt adjOk] in *.
  - destruct F as (Fe & k' & Nk & G1 & G2 & U).
    assert (Nel : el' <> el). { intros ->. apply Nk. f_equal. eapply pre_inj; eauto. }
    split; [auto|]. split.
    + assert (X : forall a b, nth_error faEl0 f = Some (a, Some b) -> a <> b -> nth_error (mFaEl m) f = Some (Nat.min a b, Some (Nat.max a b))).
      { intros a b E N. rewrite (FEL _ _ E), Hp. cbn [sortFaEl]. destruct (Nat.ltb_spec b a).
        - rewrite Nat.min_r, Nat.max_l by lia. reflexivity.
        - rewrite Nat.min_l, Nat.max_r by lia. reflexivity. }
      destruct Fe as [E|E]; [apply X; auto|]. rewrite Nat.min_comm, Nat.max_comm. apply X; auto.
    + assert (Ad := ADJ _ _ _ _ G1 G2). rewrite Hp in Ad.
      destruct (proj2 (final_iff el' f (Some el))) as (i' & I1 & I2); [eauto|]. exists i'. split; [auto|]. split; [auto|].
      intros el'' i'' H''. destruct (UU _ _ H'') as [k'' K'']. destruct (U _ _ K'') as [E|E]; inversion E; subst.
      * left. f_equal. eapply final_inj; eauto.
      * right. f_equal. eapply final_inj; eauto.
  - destruct F as (Fe & U). split.
    + rewrite (FEL _ _ Fe), Hp. reflexivity.
    + intros el' i' H'. destruct (UU _ _ H') as [k' K']. assert (E := U _ _ K'). inversion E; subst. f_equal. eapply final_inj; eauto.
Qed.

Lemma own_of f el k : get2 elFa el k = Some f -> snd (nth f faEl0 (0, None)) = None -> own0 f = el /\ f < length faEl0 /\
  forall el' k', get2 elFa el' k' = Some f -> (el', k') = (el, k).
Proof.
  intros K1 Hb. destruct (ADJ0 _ _ _ K1) as (o & K3 & F). destruct o as [el'|]; cbn [faceAt] in F.
  - exfalso. destruct F as ([E|E] & _); rewrite (nth_error_nth _ _ _ E) in Hb; discriminate.
  - destruct F as (E & U). split; [unfold own0; rewrite (nth_error_nth _ _ _ E); reflexivity|]. split; [apply nth_error_Some; congruence|exact U].
Qed.

Lemma final_par el i f o g : elFace m el i = Some f -> elAdj m el i = Some o -> par f = Some g ->
  exists el' j, o = Some el' /\ elFace m el' j = Some g /\ elAdj m el' j = Some (Some el) /\
    nth_error (mFaEl m) f = Some (el, Some el') /\ nth_error (mFaEl m) g = Some (el', Some el) /\
    (forall el'' i'', elFace m el'' i'' = Some f -> (el'', i'') = (el, i)) /\
    (forall el'' i'', elFace m el'' i'' = Some g -> (el'', i'') = (el', j)).
Proof.
  intros H1 H2 Hp. destruct (proj1 (final_iff el f o)) as (k & K1 & K2); [eauto|].
  destruct (PARb _ _ Hp) as (B1 & Hp' & N & el' & kg & Kg). destruct (PARb _ _ Hp') as (B2 & _).
  destruct (own_of _ _ _ K1 B1) as (O1 & L1 & U1). destruct (own_of _ _ _ Kg B2) as (O2 & L2 & U2).
  destruct (ADJ0 _ _ _ K1) as (o1 & A1 & _). destruct (ADJ0 _ _ _ Kg) as (o2 & A2 & _).
  assert (E1 := ADJ _ _ _ _ K1 A1). rewrite Hp, O2 in E1. assert (E2 := ADJ _ _ _ _ Kg A2). rewrite Hp', O1 in E2.
  destruct (proj2 (final_iff el' g (Some el))) as (j & J1 & J2); [eauto|].
  exists el', j. split; [congruence|]. split; [auto|]. split; [auto|].
  split. { rewrite (FEL f _ (nth_error_nth' _ (0, None) L1)), Hp, O1, O2. reflexivity. }
  split. { rewrite (FEL g _ (nth_error_nth' _ (0, None) L2)), Hp', O1, O2. reflexivity. }
  split.
  - intros el'' i'' H''. destruct (proj1 (final_face el'' f)) as [k'' K'']; [eauto|]. assert (E := U1 _ _ K''). inversion E; subst. f_equal. eapply final_inj; eauto.
  - intros el'' i'' H''. destruct (proj1 (final_face el'' g)) as [k'' K'']; [eauto|]. assert (E := U2 _ _ K''). inversion E; subst. f_equal. eapply final_inj; eauto.
Qed.

End Final.
