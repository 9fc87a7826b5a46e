(** Proofs about the constructor of meshes: all steps together. *)
From Coq Require Import QArith Qabs Sorting.Sorted Sorting.Permutation Lqa.
From Verif Require Import Util Partition MeshConn MeshSort MeshFaces MeshNorm MeshSpec MeshNormEl MeshTypes MeshHex MeshOrder.
Open Scope nat_scope.

Lemma NoDup_app_r' {A} (l l' : list A) : NoDup (l ++ l') -> NoDup l'.
Proof. induction l as [|a l IH]; cbn [app]; auto. intros H. apply NoDup_cons_iff in H. tauto. Qed.

Section All.
Variable srt : forall A : Type, (A -> A -> bool) -> list A -> list A.
Hypothesis SRT : isSort srt.
Variable tol : Q.
Hypothesis TOL : (0 < tol)%Q.

Lemma mapM_nth {A B} (f : A -> res B) l r : mapM f l = Ok r -> length r = length l /\ forall i a, nth_error l i = Some a -> exists b, f a = Ok b /\ nth_error r i = Some b.
Proof.
  intros H. apply mapM_inv in H. induction H as [|a b l r E F IH].
  - split; auto. intros [|i] a H; discriminate.
  - destruct IH as [L IH]. split; [cbn; congruence|]. intros [|i] x Hx; cbn [nth_error] in *; [inversion Hx; subst; eauto|auto].
Qed.

Lemma valid_all (l : list (list (option nat))) : (forall i j o, get2 l i j = Some o -> o <> None) ->
  exists r, mapM (mapM valid) l = Ok r /\ map (@length _) r = map (@length _) l /\ forall i j, get2 l i j = option_map Some (get2 r i j).
Proof.
  intros H.
  assert (X : forall row, (forall o, In o row -> o <> None) -> exists r, mapM valid row = Ok r /\ row = map Some r).
  { induction row as [|o row IH]; intros Hr; cbn [mapM]; [exists []; auto|]. destruct o as [x|]; [|exfalso; apply (Hr None); cbn; auto].
    cbn [valid bind]. destruct IH as (r & -> & ->); [intros; apply Hr; cbn; auto|]. cbn [bind]. exists (x :: r). auto. }
  assert (Y : forall row, In row l -> exists r, mapM valid row = Ok r /\ row = map Some r).
  { intros row Hrow. apply X. intros o Ho. apply In_nth_error in Hrow, Ho. destruct Hrow as [i Hi], Ho as [j Hj].
    apply (H i j). unfold get2. rewrite Hi. exact Hj. }
  destruct (mapM_ok (mapM valid) (fun row r => row = map Some r) l Y) as (r & E & F). exists r. split; auto. clear - F.
  induction F as [|row r l rs Er F IH]; cbn [map].
  - split; auto. intros [|i] j; reflexivity.
  - destruct IH as [IH1 IH2]. split; [rewrite IH1, Er, map_length; auto|]. intros [|i] j; unfold get2 in *; cbn [nth_error].
    + rewrite Er, nth_error_map. reflexivity.
    + apply IH2.
Qed.

Lemma get2_shape {A B} (l : list (list A)) (r : list (list B)) i j : map (@length _) l = map (@length _) r ->
  (get2 l i j <> None <-> get2 r i j <> None).
Proof.
  intros H. unfold get2. assert (E : option_map (@length _) (nth_error l i) = option_map (@length _) (nth_error r i)) by (rewrite <- !nth_error_map, H; auto).
  destruct (nth_error l i) as [a|], (nth_error r i) as [b|]; cbn in E; try discriminate; [|tauto]. injection E as E.
  rewrite !nth_error_Some. rewrite E. tauto.
Qed.

Lemma shaped_map ty E : shaped ty E -> map (@length _) E = repeat (nElFas ty) (length E).
Proof.
  intros S. induction E as [|row E IH]; cbn [map length repeat]; auto. f_equal.
  - apply S. left; auto.
  - apply IH. intros r Hr. apply S. right; auto.
Qed.

Lemma shape_row {A} (l : list (list A)) n k i row : map (@length _) l = repeat n k -> nth_error l i = Some row -> length row = n.
Proof.
  intros H E. assert (X : nth_error (map (@length _) l) i = Some (length row)) by (rewrite nth_error_map, E; auto).
  rewrite H in X. apply nth_error_In in X. apply repeat_spec in X. auto.
Qed.

Lemma shape_len {A} (l : list (list A)) n k : map (@length _) l = repeat n k -> length l = k.
Proof. intros H. rewrite <- (map_length (@length A)), H. apply repeat_length. Qed.

(** ** The faces before the normalization *)

(** Face of local face [k] of element [el] and its elements. *)
Definition faceAt (faEl : list (nat * option nat)) (elFa : list (list nat)) (elFaEl : list (list (option nat))) (el k f : nat) (o : option nat) : Prop :=
  match o with
  | None => nth_error faEl f = Some (el, None) /\ forall el' k', get2 elFa el' k' = Some f -> (el', k') = (el, k)
  | Some el' => (nth_error faEl f = Some (el, Some el') \/ nth_error faEl f = Some (el', Some el)) /\
      exists k', (el, k) <> (el', k') /\ get2 elFa el' k' = Some f /\ get2 elFaEl el' k' = Some (Some el) /\
        forall el'' k'', get2 elFa el'' k'' = Some f -> (el'', k'') = (el, k) \/ (el'', k'') = (el', k')
  end.

Lemma connect_ok ty E : shaped ty E -> conforming E ->
  exists c elFa, connect srt ty E = Ok c /\ mapM (mapM valid) (cElFa c) = Ok elFa /\
    StronglySorted (fun a b => lexLt a b = true) (cFaVe c) /\ (forall k, In k (cFaVe c) -> length k = nFaVes ty /\ sortNat k = k) /\
    length (cFaEl c) = length (cFaVe c) /\
    (forall k, In k (cFaVe c) <-> exists el fa ves, get2 E el fa = Some ves /\ k = sortNat ves) /\
    map (@length _) elFa = map (@length _) E /\ map (@length _) (cElFaEl c) = map (@length _) E /\
    (forall el k ves, get2 E el k = Some ves -> exists f o, get2 elFa el k = Some f /\ get2 (cElFaEl c) el k = Some o /\
       nth_error (cFaVe c) f = Some (sortNat ves) /\ faceAt (cFaEl c) elFa (cElFaEl c) el k f o).
Proof.
  intros Sh Cf. destruct (connect_inv srt SRT ty E Sh Cf) as (c & Ec & I).
  destruct (faces_sorted srt SRT ty E Sh Cf) as (P & L & S & Pr & ND). cbv zeta in *.
  set (m := srt face (fun a b => lexLt (fcVes a) (fcVes b)) (mkFaces E)) in *. set (G := grp (nFaVes ty) m) in *.
  assert (FG : flat G = m) by apply grp_flat. destruct I as [I1 I2 I3 I4 I5 I6 I7 I8 I9 _].
  assert (Min : forall f, In f m <-> exists ves, get2 E (fcEl f) (fcFa f) = Some ves /\ fcVes f = sortNat ves).
  { intros f. rewrite <- mkFaces_in. split; apply Permutation_in; [apply Permutation_sym|]; exact P. }
  (* every position belongs to a group *)
  assert (Pos : forall el k ves, get2 E el k = Some ves -> exists j a o, nth_error G j = Some (a, o) /\ fcVes a = sortNat ves /\
            (pos a = (el, k) \/ exists b, o = Some b /\ pos b = (el, k))).
  { intros el k ves H. assert (Hm : In (mkFace el k (sortNat ves)) m) by (apply Min; cbn; eauto).
    rewrite <- FG in Hm. unfold flat in Hm. apply in_concat in Hm. destruct Hm as (x & Hx & Hf). apply in_map_iff in Hx.
    destruct Hx as ((a & o) & <- & Hg). pose proof Hg as Hg'. apply In_nth_error in Hg. destruct Hg as [j Hj]. exists j, a, o. split; auto.
    cbn [fst snd] in Hf. destruct Hf as [->|Hf]; [split; auto; left; reflexivity|]. destruct o as [b|]; [|destruct Hf].
    destruct Hf as [->|[]]. split; [|right; eexists; split; [reflexivity|reflexivity]].
    rewrite (grp_same (nFaVes ty) m L a _ Hg'). reflexivity. }
  assert (Pos' : forall j a o, nth_error G j = Some (a, o) -> exists ves, get2 E (fcEl a) (fcFa a) = Some ves /\ fcVes a = sortNat ves).
  { intros j a o Hj. apply Min. rewrite <- FG. apply (flat_in G (a, o)). eapply nth_error_In; eauto. }
  assert (ShE := shaped_map ty E Sh).
  destruct (valid_all (cElFa c)) as (elFa & Ev & Sv & Gv).
  { intros el k o H ->. assert (X : get2 E el k <> None) by (apply (get2_shape E (cElFa c)); congruence).
    destruct (get2 E el k) as [ves|] eqn:Ee; [|congruence]. destruct (Pos el k ves Ee) as (j & a & o & Hj & _ & [Hp|(b & -> & Hp)]).
    - specialize (I6 _ _ _ Hj). unfold get in I6. inversion Hp; subst. congruence.
    - specialize (I7 _ _ _ Hj). unfold get in I7. inversion Hp; subst. congruence. }
  (* the face of a position *)
  assert (FaG : forall el k f, get2 elFa el k = Some f -> exists a o, nth_error G f = Some (a, o) /\ (pos a = (el, k) \/ exists b, o = Some b /\ pos b = (el, k))).
  { intros el k f H. assert (X : get2 E el k <> None) by (apply (get2_shape E elFa); congruence).
    destruct (get2 E el k) as [ves|] eqn:Ee; [|congruence]. destruct (Pos el k ves Ee) as (j & a & o & Hj & _ & Hp).
    assert (get2 (cElFa c) el k = Some (Some j)).
    { destruct Hp as [Hp|(b & -> & Hp)]; inversion Hp; subst; [apply (I6 _ _ _ Hj)|apply (I7 _ _ _ Hj)]. }
    rewrite Gv, H in H0. cbn in H0. inversion H0; subst. eauto. }
  exists c, elFa. split; [exact Ec|]. split; [exact Ev|]. split; [|split; [|split; [|split; [|split; [|split]]]]].
  - rewrite I2. assert (SG := grp_lt (nFaVes ty) m L S Pr ND). fold G in SG. clear - SG.
    induction SG as [|p l Sl IH F]; cbn [map]; constructor; auto. rewrite Forall_forall in F. apply Forall_forall. intros x Hx.
    apply in_map_iff in Hx. destruct Hx as (q & <- & Hq). auto.
  - intros k Hk. rewrite I2 in Hk. apply in_map_iff in Hk. destruct Hk as ((a & o) & <- & Hg). cbn [fst].
    assert (Ha : In a m) by (rewrite <- FG; apply (flat_in G (a, o)); auto). split; [apply L; auto|].
    apply Min in Ha. destruct Ha as (ves & _ & ->). apply sortNat_idem.
  - rewrite I2, I3, !map_length. reflexivity.
  - intros k. rewrite I2. split.
    + intros Hk. apply in_map_iff in Hk. destruct Hk as ((a & o) & <- & Hg). apply In_nth_error in Hg. destruct Hg as [j Hj].
      destruct (Pos' _ _ _ Hj) as (ves & H1 & H2). exists (fcEl a), (fcFa a), ves. auto.
    + intros (el & fa & ves & H & ->). destruct (Pos el fa ves H) as (j & a & o & Hj & Hv & _). rewrite <- Hv.
      apply (in_map (fun p => fcVes (fst p))) with (x := (a, o)). eapply nth_error_In; eauto.
  - rewrite Sv, I4, ShE. reflexivity.
  - rewrite I5, ShE. reflexivity.
  - intros el k ves H. destruct (Pos el k ves H) as (j & a & o & Hj & Hv & Hp). exists j.
    assert (Nab : forall b, o = Some b -> pos a <> pos b).
    { intros b -> X. apply nth_error_split in Hj. destruct Hj as (g1 & g2 & EG & _). rewrite <- FG, EG, flat_app, map_app in ND.
      change (flat ((a, Some b) :: g2)) with (a :: b :: flat g2) in ND. apply NoDup_app_r' in ND. cbn [map] in ND.
      apply NoDup_cons_iff in ND. apply (proj1 ND). rewrite X. left. auto. }
    assert (U : forall el' k', get2 elFa el' k' = Some j -> (el', k') = pos a \/ exists b, o = Some b /\ (el', k') = pos b).
    { intros el' k' H'. destruct (FaG _ _ _ H') as (a' & o' & Hj' & Hp'). rewrite Hj in Hj'. inversion Hj'; subst.
      destruct Hp' as [<-|(b & -> & <-)]; eauto. }
    assert (Fv : nth_error (cFaVe c) j = Some (sortNat ves)) by (rewrite I2, nth_error_map, Hj; cbn; congruence).
    assert (Fe : nth_error (cFaEl c) j = Some (fcEl a, option_map fcEl o)) by (rewrite I3, nth_error_map, Hj; reflexivity).
    assert (Ga : get2 elFa (fcEl a) (fcFa a) = Some j).
    { specialize (I6 _ _ _ Hj). unfold get in I6. rewrite Gv in I6. destruct (get2 elFa (fcEl a) (fcFa a)); cbn in I6; congruence. }
    destruct Hp as [Hp|(b & -> & Hp)].
    + inversion Hp; subst el k. destruct o as [b|].
      * exists (Some (fcEl b)). destruct (I9 _ _ _ Hj) as [J1 J2]. split; [auto|]. split; [exact J1|]. split; [auto|].
        cbn [faceAt]. split; [left; exact Fe|]. exists (fcFa b). split; [apply (Nab b eq_refl)|]. split.
        { specialize (I7 _ _ _ Hj). unfold get in I7. rewrite Gv in I7. destruct (get2 elFa (fcEl b) (fcFa b)); cbn in I7; congruence. }
        split; [exact J2|]. intros el'' k'' H''. destruct (U _ _ H'') as [X|(b' & Eb & X)]; [left; auto|right; inversion Eb; subst; auto].
      * exists None. split; [auto|]. split; [apply (I8 _ _ Hj)|]. split; [auto|]. cbn [faceAt]. split; [exact Fe|].
        intros el' k' H'. destruct (U _ _ H') as [X|(b' & Eb & X)]; [auto|discriminate].
    + inversion Hp; subst el k. exists (Some (fcEl a)). destruct (I9 _ _ _ Hj) as [J1 J2].
      split. { specialize (I7 _ _ _ Hj). unfold get in I7. rewrite Gv in I7. destruct (get2 elFa (fcEl b) (fcFa b)); cbn in I7; congruence. }
      split; [exact J2|]. split; [auto|]. cbn [faceAt]. split; [right; exact Fe|]. exists (fcFa a).
      split; [intros X; apply (Nab b eq_refl); symmetry; exact X|]. split; [exact Ga|]. split; [exact J1|].
      intros el'' k'' H''. destruct (U _ _ H'') as [X|(b' & Eb & X)]; [right; auto|left; inversion Eb; subst; auto].
Qed.

(** ** The elements after the normalization *)

Lemma sorted_rows faVe : (forall k, In k faVe -> sortNat k = k) -> map sortNat faVe = faVe.
Proof. intros H. rewrite <- (map_id faVe) at 2. apply map_ext_in. exact H. Qed.

Definition elOk (ty : elType) (crds : list pt) (faVe : list (list nat)) (ve fa : list nat) (ad : list (option nat)) (e : elem) : Prop :=
  Permutation ve (vesOf e) /\ placed tol crds ty (vesOf e) /\ length (fasOf e) = nElFas ty /\ length (adsOf e) = nElFas ty /\
  Permutation (combine fa ad) (combine (fasOf e) (adsOf e)) /\
  map (fun f => nth_error faVe f) (fasOf e) = map Some (facesOf ty (vesOf e)) /\ NoDup (fasOf e).

Lemma norm_all ty crds elVe E faVe elFa elFaEl : wfMesh tol ty crds elVe E ->
  map (@length _) elFa = map (@length _) E -> map (@length _) elFaEl = map (@length _) E ->
  (forall el k ves, get2 E el k = Some ves -> exists f, get2 elFa el k = Some f /\ nth_error faVe f = Some (sortNat ves)) ->
  exists els, mapM (normEl srt tol ty crds faVe) (combine (combine elVe elFa) elFaEl) = Ok els /\ length els = length elVe /\
    forall el ve fa ad, nth_error elVe el = Some ve -> nth_error elFa el = Some fa -> nth_error elFaEl el = Some ad ->
      exists e, nth_error els el = Some e /\ elOk ty crds faVe ve fa ad e.
Proof.
  intros (_ & LE & Sh & _ & W) S1 S2 F. assert (ShE := shaped_map ty E Sh).
  assert (L1 : length elFa = length elVe) by (rewrite <- LE, <- (map_length (@length _) elFa), S1, map_length; auto).
  assert (L2 : length elFaEl = length elVe) by (rewrite <- LE, <- (map_length (@length _) elFaEl), S2, map_length; auto).
  set (l := combine (combine elVe elFa) elFaEl : list elem).
  change (combine (combine elVe elFa) elFaEl) with l.
  assert (Ll : length l = length elVe) by (unfold l, elem; rewrite !combine_length; lia).
  assert (N : forall el ve fa ad, nth_error elVe el = Some ve -> nth_error elFa el = Some fa -> nth_error elFaEl el = Some ad ->
            nth_error l el = Some (ve, fa, ad)).
  { intros el ve fa ad H1 H2 H3. unfold l, elem. rewrite nth_error_comb by (rewrite combine_length; lia). rewrite nth_error_comb by lia.
    rewrite H1, H2, H3. reflexivity. }
  assert (Step : forall el ve fa ad, nth_error elVe el = Some ve -> nth_error elFa el = Some fa -> nth_error elFaEl el = Some ad ->
            exists e, normEl srt tol ty crds faVe (ve, fa, ad) = Ok e /\ elOk ty crds faVe ve fa ad e).
  { intros el ve fa ad H1 H2 H3.
    destruct (nth_error E el) as [row|] eqn:Er; [|apply nth_error_None in Er; assert (el < length elVe) by (apply nth_error_Some; congruence); lia].
    destruct (W el ve row H1 Er) as (ND & B & ps & Pv & Pl & Pf).
    assert (Lf : length fa = nElFas ty) by (eapply (shape_row elFa); [rewrite S1; exact ShE|exact H2]).
    assert (La : length ad = nElFas ty) by (eapply (shape_row elFaEl); [rewrite S2; exact ShE|exact H3]).
    assert (Lr : length row = nElFas ty) by (eapply (shape_row E); [exact ShE|exact Er]).
    assert (K : map (fun f => nth_error faVe f) fa = map Some (map sortNat row)).
    { apply nth_error_ext'. intros k. rewrite !nth_error_map. destruct (nth_error row k) as [ves|] eqn:Ek.
      - destruct (F el k ves) as (f & Gf & Gk); [unfold get2; rewrite Er; auto|]. unfold get2 in Gf. rewrite H2 in Gf. rewrite Gf. cbn. congruence.
      - apply nth_error_None in Ek. rewrite (proj2 (nth_error_None fa k)) by lia. reflexivity. }
    destruct (normEl_ok srt SRT tol TOL ty crds faVe ve fa ad ps ND B Pv Pl Lf La) as (ve' & fa' & ad' & E1 & Q1 & Q2 & Q3 & Q4 & Q5 & Q6).
    { rewrite K. apply Permutation_map. exact Pf. }
    exists (ve', fa', ad'). split; [exact E1|]. unfold elOk, vesOf, fasOf, adsOf. cbn [fst snd].
    split; [exact Q1|]. split; [exact Q2|]. split; [exact Q3|]. split; [exact Q4|]. split; [exact Q5|]. split; [exact Q6|].
    (* different faces *)
    assert (NDf : NoDup (map Some (facesOf ty ve'))).
    { apply FinFun.Injective_map_NoDup; [intros x y H; congruence|]. apply facesOf_NoDup_tri.
      - eapply Permutation_NoDup; eauto.
      - eapply placed_len; eauto. }
    rewrite <- Q6 in NDf. eapply NoDup_map_inv; eauto. }
  destruct (mapM_ok (normEl srt tol ty crds faVe) (fun _ _ => True) l) as (els & Em & _).
  { intros x Hx. apply In_nth_error in Hx. destruct Hx as [el Hel].
    assert (Hlt : el < length elVe) by (rewrite <- Ll; apply nth_error_Some; congruence).
    destruct (nth_error elVe el) as [ve|] eqn:H1; [|apply nth_error_None in H1; lia].
    destruct (nth_error elFa el) as [fa|] eqn:H2; [|apply nth_error_None in H2; lia].
    destruct (nth_error elFaEl el) as [ad|] eqn:H3; [|apply nth_error_None in H3; lia].
    rewrite (N el ve fa ad H1 H2 H3) in Hel. inversion Hel; subst x. destruct (Step el ve fa ad H1 H2 H3) as (e & Ee & _). eauto. }
  exists els. destruct (mapM_nth _ _ _ Em) as [Le Ne]. split; [exact Em|]. split; [congruence|].
  intros el ve fa ad H1 H2 H3. destruct (Ne el (ve, fa, ad) (N _ _ _ _ H1 H2 H3)) as (e & Ee & Hn). exists e. split; auto.
  destruct (Step el ve fa ad H1 H2 H3) as (e' & Ee' & O). rewrite Ee' in Ee. injection Ee as <-. exact O.
Qed.

(** ** Groups *)

Lemma addGroups_ok ty faVe : (forall k, In k faVe -> length k = nFaVes ty /\ sortNat k = k) -> StronglySorted (fun a b => lexLt a b = true) faVe ->
  forall groups done tys,
  (forall t fs, In (t, fs) groups -> NoDup (map sortNat fs) /\ forall f, In f fs -> In (sortNat f) faVe) ->
  length tys = length faVe -> (forall i k t, nth_error faVe i = Some k -> nth_error tys i = Some t -> typeBits done k t) ->
  exists tys', addGroups srt ty faVe groups tys = Ok tys' /\ length tys' = length faVe /\
    forall i k t, nth_error faVe i = Some k -> nth_error tys' i = Some t -> typeBits (done ++ groups) k t.
Proof.
  intros Lk Sk. induction groups as [|[g fs] groups IH]; intros done tys W Lt D.
  - cbn [addGroups]. exists tys. rewrite app_nil_r. auto.
  - cbn [addGroups]. destruct (W g fs (or_introl eq_refl)) as [NDf Wf].
    unfold addGroup. cbn [fst snd].
    assert (Lr : forall r, In r (map sortNat fs) -> length r = nFaVes ty).
    { intros r Hr. apply in_map_iff in Hr. destruct Hr as (f & <- & Hf). apply Lk. auto. }
    destruct (sortLex_ok srt SRT (map sortNat fs) (nFaVes ty) Lr) as (p & Ep & Pp & Sp). rewrite Ep. cbn [bind].
    set (sp := pick [] (map sortNat fs) p) in *. assert (Psp : Permutation (map sortNat fs) sp) by (apply pick_perm; exact Pp).
    assert (A := addSparse_ok (nFaVes ty) g faVe sp tys (fun v Hv => proj1 (Lk v Hv))
                   (fun v Hv => Lr v (Permutation_in v (Permutation_sym Psp) Hv)) Lt Sk Sp).
    destruct (addSparseTypeEn (nFaVes ty) faVe sp g tys) as [tys1|e].
    + destruct A as (Et & _ & _). cbn [bind].
      replace (done ++ (g, fs) :: groups) with ((done ++ [(g, fs)]) ++ groups) by (rewrite <- app_assoc; reflexivity).
      apply IH; auto.
      * intros t fs' H. apply (W t fs'). right; auto.
      * rewrite Et, map_length, combine_length. lia.
      * intros i k t Hk Ht. rewrite Et, nth_error_map, nth_error_comb in Ht by auto. rewrite Hk in Ht.
        destruct (nth_error tys i) as [t0|] eqn:E0; cbn [option_map fst snd] in Ht; [|discriminate]. inversion Ht; subst t.
        assert (D0 := D i k t0 Hk E0). assert (Hik : In k faVe) by (eapply nth_error_In; eauto). destruct (Lk k Hik) as [_ Sk0].
        intros b. unfold addTo. destruct (in_dec _ k sp) as [Hi|Hi].
        -- rewrite N.lor_spec, Bool.orb_true_iff, (D0 b). split.
           ++ intros [(g' & fs' & f & H1 & H2 & H3 & H4)|H].
              ** exists g', fs', f. split; [apply in_app_iff; auto|]. auto.
              ** eapply Permutation_in in Hi; [|apply Permutation_sym; exact Psp]. apply in_map_iff in Hi. destruct Hi as (f & Ef & Hf).
                 exists g, fs, f. split; [apply in_app_iff; right; left; auto|]. split; auto. split; auto. rewrite <- Ef. apply sortNat_perm.
           ++ intros (g' & fs' & f & H1 & H2 & H3 & H4). apply in_app_iff in H1. destruct H1 as [H1|[H1|[]]]; [left|right].
              ** exists g', fs', f. auto.
              ** inversion H1; subst. auto.
        -- rewrite (D0 b). split.
           ++ intros (g' & fs' & f & H1 & H2 & H3 & H4). exists g', fs', f. split; [apply in_app_iff; auto|]. auto.
           ++ intros (g' & fs' & f & H1 & H2 & H3 & H4). apply in_app_iff in H1. destruct H1 as [H1|[H1|[]]].
              ** exists g', fs', f. auto.
              ** inversion H1; subst. exfalso. apply Hi. eapply Permutation_in; [exact Psp|]. apply in_map_iff. exists f. split; auto.
                 rewrite (sortNat_unique f k H3). exact Sk0.
    + exfalso. apply A. split.
      * eapply Permutation_NoDup; eauto.
      * intros v Hv. eapply Permutation_in in Hv; [|apply Permutation_sym; exact Psp]. apply in_map_iff in Hv. destruct Hv as (f & <- & Hf). auto.
Qed.

End All.
