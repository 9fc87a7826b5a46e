(** Properties of meshes: connectivity, order of vertices and faces, types of the faces, periodic boundaries. *)
From Coq Require Import QArith Qabs Sorting.Sorted Sorting.Permutation Lqa.
From Verif Require Import Util Partition MeshConn MeshSpec MeshSort MeshFaces MeshNorm MeshNormEl MeshTypes MeshHex MeshOrder MeshAll MeshPer MeshFinal.
Open Scope nat_scope.

Section Props.
Variable srt : forall A : Type, (A -> A -> bool) -> list A -> list A.
Hypothesis SRT : isSort srt.
Variable tol : Q.
Hypothesis TOL : (0 < tol)%Q.

Lemma lexLt_NoDup l : StronglySorted (fun a b => lexLt a b = true) l -> NoDup l.
Proof.
  induction 1 as [|a l S IH F]; constructor; auto. intros X. rewrite Forall_forall in F. apply F in X. rewrite lexLt_irr in X. discriminate.
Qed.

(** ** Opposite faces *)

Lemma eqCrd_level a b : eqCrd tol a b = true <-> level tol a b.
Proof. unfold eqCrd, level. rewrite Qltb_lt. rewrite Qabs_Qminus. tauto. Qed.

Lemma flatb_spec crds k x : flatb tol crds k x = true <-> forall v w, In v k -> In w k -> level tol (crd (xyz crds v) x) (crd (xyz crds w) x).
Proof.
  unfold flatb. rewrite forallb_forall. split.
  - intros H v w Hv Hw. apply eqCrd_level. apply (H (v, w)). apply in_prod_iff. auto.
  - intros H [v w] Hp. apply in_prod_iff in Hp. apply eqCrd_level. apply H; tauto.
Qed.

Lemma find_seq (p : nat -> bool) n : forall lo, match find p (seq lo n) with
  | Some x => lo <= x < lo + n /\ p x = true /\ forall y, lo <= y < x -> p y = false
  | None => forall y, lo <= y < lo + n -> p y = false end.
Proof.
  induction n as [|n IH]; intros lo; cbn [seq find].
  - intros y Hy. lia.
  - destruct (p lo) eqn:E; [split; [lia|]; split; auto; intros; lia|]. specialize (IH (1 + lo)). cbn [Nat.add] in IH.
    destruct (find p (seq (S lo) n)) as [x|].
    + destruct IH as (H1 & H2 & H3). split; [lia|]. split; auto. intros y Hy. destruct (Nat.eq_dec y lo) as [->|N]; auto. apply H3. lia.
    + intros y Hy. destruct (Nat.eq_dec y lo) as [->|N]; auto. apply IH. lia.
Qed.

Lemma planeb_spec ty crds k x : planeb tol ty crds k = Some x <-> plane tol crds ty k x.
Proof.
  unfold planeb, plane. assert (F := find_seq (flatb tol crds k) (nDis ty) 0). split.
  - intros E. rewrite E in F. destruct F as (H1 & H2 & H3). split; [lia|]. split; [apply flatb_spec; auto|].
    intros y Hy Hf. apply flatb_spec in Hf. rewrite H3 in Hf by lia. discriminate.
  - intros (H1 & H2 & H3). apply flatb_spec in H2. destruct (find _ _) as [y|].
    + destruct F as (F1 & F2 & F3). destruct (lt_eq_lt_dec x y) as [[L|E]|L]; [|congruence|].
      * rewrite F3 in H2 by lia. discriminate.
      * exfalso. apply (H3 y L). apply flatb_spec. auto.
    + rewrite F in H2 by lia. discriminate.
Qed.

Lemma list_prod_NoDup (k g : list nat) : NoDup k -> NoDup g -> NoDup (list_prod k g).
Proof.
  intros Nk Ng. induction Nk as [|v k Hv Nk IH]; cbn [list_prod]; [constructor|]. apply NoDup_app_i; auto.
  - apply FinFun.Injective_map_NoDup; auto. intros x y H. congruence.
  - intros [a b] H1 H2. apply in_map_iff in H1. destruct H1 as (y & E & _). inversion E; subst. apply in_prod_iff in H2. tauto.
Qed.

Lemma partb_spec ty crds k g : NoDup k -> NoDup g -> k <> g -> (partb tol ty crds k g = true <-> opposite tol crds ty k g).
Proof.
  intros Nk Ng N. unfold opposite, partb.
  assert (C : forall x, length (filter (matchb tol ty crds x) (list_prod k g)) = nFaVes ty <->
     exists prs : list (nat * nat), NoDup prs /\ length prs = nFaVes ty /\ forall v w, In (v, w) prs <-> In v k /\ In w g /\ forall y, y < nDis ty -> y <> x -> level tol (crd (xyz crds v) y) (crd (xyz crds w) y)).
  { intros x. assert (M : forall v w, In (v, w) (filter (matchb tol ty crds x) (list_prod k g)) <-> In v k /\ In w g /\ forall y, y < nDis ty -> y <> x -> level tol (crd (xyz crds v) y) (crd (xyz crds w) y)).
    { intros v w. rewrite filter_In, in_prod_iff. unfold matchb. cbn [fst snd]. rewrite forallb_forall. split.
      - intros [[Hv Hw] H]. split; auto. split; auto. intros y Hy Ny. specialize (H y). rewrite in_seq in H. rewrite (proj2 (Nat.eqb_neq y x) Ny) in H.
        apply eqCrd_level. apply H. lia.
      - intros (Hv & Hw & H). split; auto. intros y Hy. apply in_seq in Hy. destruct (Nat.eqb_spec y x) as [->|Ny]; auto. apply eqCrd_level, H; auto. lia. }
    assert (NF : NoDup (filter (matchb tol ty crds x) (list_prod k g))) by (apply NoDup_filter, list_prod_NoDup; auto).
    split.
    - intros E. exists (filter (matchb tol ty crds x) (list_prod k g)). auto.
    - intros (prs & ND & E & H). rewrite <- E. apply Permutation_length. apply NoDup_Permutation; auto. intros [v w]. rewrite M, H. tauto. }
  split.
  - intros E. split; auto. destruct (planeb tol ty crds k) as [a|] eqn:Ea; [|discriminate]. destruct (planeb tol ty crds g) as [b|] eqn:Eb; [|discriminate].
    apply andb_prop in E. destruct E as [E1 E2]. apply Nat.eqb_eq in E1, E2. subst b. apply planeb_spec in Ea, Eb.
    exists a. split; auto. split; auto. apply C. auto.
  - intros (_ & x & Pk & Pg & E). apply planeb_spec in Pk, Pg. rewrite Pk, Pg, Nat.eqb_refl. cbn [andb]. apply Nat.eqb_eq. apply C. auto.
Qed.

(** ** Periodic faces *)

Definition perFaces (t : N) (tys : list N) (n : nat) : list nat := filter (fun f => N.eqb (nth f tys 0%N) t) (seq 0 n).

Lemma bnd_ok (t : N) (tys : list N) (faVe : list (list nat)) (faEl : list (nat * option nat)) : length tys = length faVe -> length faEl = length faVe ->
  (forall f, In f (perFaces t tys (length faVe)) -> snd (nth f faEl (0, None)) = None) ->
  for_ 0 (length faVe) (fun fa bnd => t' <- rd tys fa ;;
    if N.eqb t' t then e <- rd faEl fa ;; _ <- check (match snd e with None => true | Some _ => false end) ;; Ok (bnd ++ [fa])
    else Ok bnd) [] = Ok (perFaces t tys (length faVe)).
Proof.
  intros L1 L2 B.
  match goal with |- for_ ?a ?b ?B ?s = _ => destruct (for_ok (fun n r => r = perFaces t tys n) a b B s) as (r & E & ->) end; auto; [lia|].
  intros i r Hi ->. rewrite (rd_ok tys i 0%N) by lia. cbn [bind].
  assert (Es : perFaces t tys (1 + i) = perFaces t tys i ++ if N.eqb (nth i tys 0%N) t then [i] else []).
  { unfold perFaces. change (1 + i) with (S i). rewrite seq_snoc, filter_app. reflexivity. }
  cbn [Nat.add] in Es. rewrite Es.
  destruct (N.eqb (nth i tys 0%N) t) eqn:E.
  - rewrite (rd_ok faEl i (0, None)) by lia. cbn [bind]. rewrite B by (apply filter_In; split; [apply in_seq; lia|auto]). cbn [check bind]. eexists. split; reflexivity.
  - eexists. split; [reflexivity|]. rewrite app_nil_r. reflexivity.
Qed.

(** ** The constructor *)

Lemma mesh_common ty crds elVe elFaVe groups : wfMesh tol ty crds elVe elFaVe -> wfGroups elFaVe groups ->
  exists c elFa tys, 0 < length crds /\ connect srt ty elFaVe = Ok c /\ addGroups srt ty (cFaVe c) groups (repeat 0%N (length (cFaVe c))) = Ok tys /\
    mapM (mapM valid) (cElFa c) = Ok elFa /\
    StronglySorted (fun a b => lexLt a b = true) (cFaVe c) /\ (forall k, In k (cFaVe c) -> inCrds ty crds k /\ NoDup k /\ sortNat k = k) /\
    length (cFaEl c) = length (cFaVe c) /\ (forall k, In k (cFaVe c) <-> isFace elFaVe k) /\
    map (@length _) elFa = map (@length _) elFaVe /\ map (@length _) (cElFaEl c) = map (@length _) elFaVe /\
    (forall el k ves, get2 elFaVe el k = Some ves -> exists f, get2 elFa el k = Some f /\ nth_error (cFaVe c) f = Some (sortNat ves)) /\
    (forall el k f, get2 elFa el k = Some f -> exists o, get2 (cElFaEl c) el k = Some o /\ faceAt (cFaEl c) elFa (cElFaEl c) el k f o) /\
    length tys = length (cFaVe c) /\
    (forall i k t, nth_error (cFaVe c) i = Some k -> nth_error tys i = Some t -> typeBits groups k t).
Proof.
  intros (P & LE & Sh & Cf & W) G.
  destruct (connect_ok srt SRT ty elFaVe Sh Cf) as (c & elFa & Ec & Ev & S & K & LF & FI & S1 & S2 & A).
  destruct (addGroups_ok srt SRT ty (cFaVe c) K S groups [] (repeat 0%N (length (cFaVe c)))) as (tys & Et & Lt & T).
  { intros t fs H. destruct (G t fs H) as [N I]. split; auto. intros f Hf. destruct (I f Hf) as (el & fa & ves & Hg & Pm).
    apply FI. exists el, fa, ves. split; auto. apply sortNat_unique. auto. }
  { apply repeat_length. }
  { intros i k t Hk Ht b. apply nth_error_In in Ht. apply repeat_spec in Ht. subst t. rewrite N.bits_0. split; [discriminate|]. intros (g & fs & f & [] & _). }
  cbn [app] in T.
  assert (KV : forall k, In k (cFaVe c) -> inCrds ty crds k /\ NoDup k /\ sortNat k = k).
  { intros k Hk. destruct (K k Hk) as [Lk Sk]. apply FI in Hk. destruct Hk as (el & fa & ves & Hg & ->).
    assert (Hel : exists row, nth_error elFaVe el = Some row /\ nth_error row fa = Some ves).
    { unfold get2 in Hg. destruct (nth_error elFaVe el) as [row|]; [eauto|discriminate]. }
    destruct Hel as (row & Er & Ef). destruct (nth_error elVe el) as [ve|] eqn:Eve.
    2:{ apply nth_error_None in Eve. assert (el < length elFaVe) by (apply nth_error_Some; congruence). lia. }
    destruct (W el ve row Eve Er) as (ND & B & ps & Pv & Pl & Pf).
    assert (Hin : In (sortNat ves) (facesOf ty ps)) by (eapply Permutation_in; [exact Pf|]; apply in_map; eapply nth_error_In; eauto).
    unfold facesOf in Hin. apply in_map_iff in Hin. destruct Hin as (r & Hr & Hrf).
    assert (Lp := placed_len tol crds ty ps Pl).
    assert (NDr : NoDup r /\ forall i, In i r -> i < length ps).
    { rewrite Lp. clear - Hrf. destruct ty; cbn in Hrf; repeat (destruct Hrf as [<-|Hrf]; [split; [repeat constructor; cbn; intuition discriminate|cbn; intros i Hi; intuition lia]|]); destruct Hrf. }
    assert (NDm : NoDup (map (fun i => nth i ps 0) r)).
    { destruct NDr as [NDr Br]. assert (NDp : NoDup ps) by (eapply Permutation_NoDup; eauto). clear - NDr Br NDp. induction NDr as [|i r Hi NDr IH]; cbn [map]; constructor.
      - intros X. apply in_map_iff in X. destruct X as (j & E & Hj). apply Hi. replace i with j; auto. eapply NoDup_nth; eauto; apply Br; cbn; auto.
      - apply IH. intros; apply Br; right; auto. }
    split; [split; auto|split; auto].
    - intros v Hv. apply B. eapply Permutation_in; [apply Permutation_sym; exact Pv|]. rewrite <- Hr in Hv.
      eapply Permutation_in in Hv; [|apply Permutation_sym, sortNat_perm]. apply in_map_iff in Hv. destruct Hv as (i & <- & Hi). apply nth_In. apply NDr. auto.
    - rewrite <- Hr. eapply Permutation_NoDup; [apply sortNat_perm|exact NDm]. }
  exists c, elFa, tys. split; [|split; [exact Ec|]; split; [exact Et|]; split; [exact Ev|]; split; [exact S|]; split; [exact KV|]; split; [exact LF|]; split; [exact FI|];
    split; [exact S1|]; split; [exact S2|]; split; [|split; [|split; [exact Lt|exact T]]]].
  - destruct elVe as [|ve elVe']; [cbn in P; lia|]. destruct elFaVe as [|row E']; [cbn in LE; lia|].
    destruct (W 0 ve row eq_refl eq_refl) as (_ & B & ps & Pv & Pl & _). assert (Lp := placed_len tol crds ty ps Pl).
    destruct ve as [|v ve]; [apply Permutation_length in Pv; rewrite Lp in Pv; destruct ty; discriminate|]. specialize (B v (or_introl eq_refl)). lia.
  - intros el k ves H. destruct (A el k ves H) as (f & o & A1 & A2 & A3 & A4). eauto.
  - intros el k f H. assert (X : get2 elFaVe el k <> None) by (apply (get2_shape elFaVe elFa); [congruence|congruence]).
    destruct (get2 elFaVe el k) as [ves|] eqn:Ee; [|congruence]. destruct (A el k ves Ee) as (f' & o & A1 & A2 & A3 & A4).
    assert (f' = f) by congruence. subst. eauto.
Qed.

(** every face of the mesh is a local face of an element *)
Lemma faces_all ty crds elVe elFaVe faVe elFa ef fin tys els : NoDup faVe -> length elFaVe = length elVe -> map (@length _) elFa = map (@length _) elFaVe -> map (@length _) ef = map (@length _) elFaVe ->
  (forall k, In k faVe <-> isFace elFaVe k) ->
  (forall el k ves, get2 elFaVe el k = Some ves -> exists f, get2 elFa el k = Some f /\ nth_error faVe f = Some (sortNat ves)) ->
  (forall el ve fa ad, nth_error elVe el = Some ve -> nth_error elFa el = Some fa -> nth_error ef el = Some ad -> exists e, nth_error els el = Some e /\ elOk tol ty crds faVe ve fa ad e) ->
  forall f, f < length faVe -> exists el i, elFace (mkMesh faVe fin tys els) el i = Some f.
Proof.
  intros ND LE S1 S2 FI A1 Oe f Hf. destruct (proj1 (FI (nth f faVe [])) (nth_In _ _ Hf)) as (el & k & ves & Hg & E).
  destruct (A1 _ _ _ Hg) as (f' & G1 & G2). assert (f' = f).
  { eapply NoDup_nth_error; [exact ND|apply nth_error_Some; congruence|]. rewrite G2, <- E. symmetry. apply nth_error_nth'. exact Hf. }
  subst f'. unfold get2 in G1. destruct (nth_error elFa el) as [fa|] eqn:H1; [|discriminate].
  assert (L1 : length elFa = length elVe) by (rewrite <- LE, <- (map_length (@length _) elFa), S1, map_length; auto).
  assert (L2 : length ef = length elVe) by (rewrite <- LE, <- (map_length (@length _) ef), S2, map_length; auto).
  assert (Hl : el < length elFa) by (apply nth_error_Some; congruence).
  destruct (nth_error elVe el) as [ve|] eqn:H0; [|apply nth_error_None in H0; lia].
  destruct (nth_error ef el) as [ad|] eqn:H2; [|apply nth_error_None in H2; lia].
  destruct (Oe _ _ _ _ H0 H1 H2) as (e & Ee & _ & _ & L3 & L4 & P & _). exists el.
  assert (LF : length fa = length ad).
  { assert (X : nth_error (map (@length nat) elFa) el = nth_error (map (@length (option nat)) ef) el) by congruence.
    rewrite !nth_error_map, H1, H2 in X. cbn in X. congruence. }
  destruct (nth_error ad k) as [o|] eqn:Ea; [|apply nth_error_None in Ea; assert (k < length fa) by (apply nth_error_Some; congruence); lia].
  assert (I : In (f, o) (combine fa ad)).
  { clear - G1 Ea. revert ad k G1 Ea. induction fa as [|x fa IH]; intros [|y ad] [|k] H1 H2; try discriminate; cbn in *; [left; congruence|right; eauto]. }
  apply (Permutation_in _ P) in I. apply in_combine_l in I. apply In_nth_error in I as (i & Hi). exists i. unfold elFace. cbn [mEls]. rewrite Ee. exact Hi.
Qed.

(** the first element of a face has the face *)
Lemma face_owner ty crds elVe m el i f : elementsOk tol ty crds elVe m -> elFace m el i = Some f -> exists o, elAdj m el i = Some o.
Proof.
  intros [L H] E. unfold elFace, elAdj in *. destruct (nth_error (mEls m) el) as [e|] eqn:Ee; [|discriminate].
  destruct (nth_error elVe el) as [ve|] eqn:Ev; [|apply nth_error_None in Ev; assert (el < length (mEls m)) by (apply nth_error_Some; congruence); lia].
  destruct (H el ve Ev) as (e' & Ee' & _ & _ & L1 & L2 & _). replace e' with e in * by congruence.
  destruct (nth_error (adsOf e) i) as [o|] eqn:Eo; [eauto|]. apply nth_error_None in Eo. assert (i < length (fasOf e)) by (apply nth_error_Some; congruence). lia.
Qed.

Lemma adj_owner m el i f o : elFace m el i = Some f -> adjOk m el i f o -> exists el' i' o', elFace m el' i' = Some f /\ nth_error (mFaEl m) f = Some (el', o').
Proof.
  intros E A. destruct o as [el'|]; cbn [adjOk] in A.
  - destruct A as (_ & A & i' & E' & _). destruct (Nat.min_dec el el') as [X|X]; rewrite X in A; eauto 10.
  - destruct A as (A & _). eauto 10.
Qed.

Lemma mesh_ok ty crds elVe elFaVe groups : wfMesh tol ty crds elVe elFaVe -> wfGroups elFaVe groups ->
  exists m, mkMeshOf srt tol ty crds elVe elFaVe groups None = Ok m /\
    facesOk elFaVe m /\ elementsOk tol ty crds elVe m /\ typesOk groups m /\
    (forall f, f < length (mFaVe m) -> exists el i o, elFace m el i = Some f /\ nth_error (mFaEl m) f = Some (el, o)) /\
    forall el i f o, elFace m el i = Some f -> elAdj m el i = Some o -> adjOk m el i f o.
Proof.
  intros W G. destruct (mesh_common ty crds elVe elFaVe groups W G) as (c & elFa & tys & P0 & Ec & Et & Ev & S & KV & LF & FI & S1 & S2 & A1 & A2 & Lt & T).
  destruct (norm_all srt SRT tol TOL ty crds elVe elFaVe (cFaVe c) elFa (cElFaEl c) W S1 S2 A1) as (els & En & Le & Oe).
  set (m := mkMesh (cFaVe c) (map sortFaEl (cFaEl c)) tys els). exists m.
  assert (LE : length elFaVe = length elVe) by apply W. assert (Sh : shaped ty elFaVe) by apply W. assert (ShE := shaped_map ty elFaVe Sh).
  assert (EL : elementsOk tol ty crds elVe m).
  { split; [exact Le|]. intros el ve H. assert (el < length elVe) by (apply nth_error_Some; congruence).
    assert (L1 : length elFa = length elVe) by (rewrite <- LE, <- (map_length (@length _) elFa), S1, map_length; auto).
    assert (L2 : length (cElFaEl c) = length elVe) by (rewrite <- LE, <- (map_length (@length _) (cElFaEl c)), S2, map_length; auto).
    destruct (nth_error elFa el) as [fa|] eqn:H2; [|apply nth_error_None in H2; lia].
    destruct (nth_error (cElFaEl c) el) as [ad|] eqn:H3; [|apply nth_error_None in H3; lia].
    destruct (Oe el ve fa ad H H2 H3) as (e & Ee & O1 & O2 & O3 & O4 & O5 & O6 & O7). exists e. cbn [mEls mFaVe m]. auto 10. }
  assert (AD : forall el i f o, elFace m el i = Some f -> elAdj m el i = Some o -> adjOk m el i f o).
  { intros el i f o H1 H2.
    apply (final_adjOk tol ty crds elVe elFa (cElFaEl c) m) with (faEl0 := cFaEl c) (elFaEl0 := cElFaEl c) (par := fun _ => None); auto.
    + rewrite <- LE, <- (map_length (@length _) elFa), S1, map_length; auto.
    + rewrite <- LE, <- (map_length (@length _) (cElFaEl c)), S2, map_length; auto.
    + intros el' fa H. eapply (shape_row elFa); [rewrite S1; exact ShE|exact H].
    + intros el' ad H. eapply (shape_row (cElFaEl c)); [rewrite S2; exact ShE|exact H].
    + intros f' g X. discriminate.
    + intros f' p Hp. cbn [mFaEl m]. rewrite nth_error_map, Hp. reflexivity. }
  split; [|split; [|split; [|split; [|split]]]].
  - unfold mkMeshOf. destruct W as (P & _). apply Nat.ltb_lt in P. rewrite (proj2 (Nat.ltb_lt _ _) P0), P. cbn [check bind]. rewrite Ec. cbn [bind]. rewrite Et. cbn [bind].
    rewrite Ev. cbn [bind]. unfold normOrder. rewrite sorted_rows by (intros k Hk; apply KV; auto). rewrite En. reflexivity.
  - split; [exact S|]. split; [exact FI|]. cbn [mFaEl mFaVe mSpFa m]. rewrite map_length. auto.
  - exact EL.
  - intros f k t Hk Ht. apply (T f); auto.
  - intros f Hf. destruct (faces_all ty crds elVe elFaVe (cFaVe c) elFa (cElFaEl c) (map sortFaEl (cFaEl c)) tys els (lexLt_NoDup _ S) LE S1 S2 FI A1 Oe f Hf) as (el & i & E).
    destruct (face_owner ty crds elVe m el i f EL E) as (o & Eo). exact (adj_owner m el i f o E (AD el i f o E Eo)).
  - exact AD.
Qed.

(** C32: the mesh's faces are the faces of the elements, once each; the adjacent element of a local face is the one which shares the
    face; faces' types are those of the physical groups. *)
Theorem C32_connectivity ty crds elVe elFaVe groups : wfMesh tol ty crds elVe elFaVe -> wfGroups elFaVe groups ->
  exists m, mkMeshOf srt tol ty crds elVe elFaVe groups None = Ok m /\ facesOk elFaVe m /\ typesOk groups m /\
    length (mEls m) = length elVe /\
    (forall el i, el < length elVe -> i < nElFas ty -> exists f o, elFace m el i = Some f /\ elAdj m el i = Some o) /\
    (forall f, f < length (mFaVe m) -> exists el i o, elFace m el i = Some f /\ nth_error (mFaEl m) f = Some (el, o)) /\
    forall el i f o, elFace m el i = Some f -> elAdj m el i = Some o -> adjOk m el i f o.
Proof.
  intros W G. destruct (mesh_ok ty crds elVe elFaVe groups W G) as (m & E & F & El & T & O & A). exists m.
  split; [exact E|]. split; [exact F|]. split; [exact T|]. destruct El as [L El]. split; [exact L|]. split; [|split; [exact O|exact A]].
  intros el i Hel Hi. destruct (nth_error elVe el) as [ve|] eqn:Ev; [|apply nth_error_None in Ev; lia].
  destruct (El el ve Ev) as (e & Ee & _ & _ & L1 & L2 & _). unfold elFace, elAdj. rewrite Ee.
  destruct (nth_error (fasOf e) i) as [f|] eqn:E1; [|apply nth_error_None in E1; lia].
  destruct (nth_error (adsOf e) i) as [o|] eqn:E2; [|apply nth_error_None in E2; lia]. eauto.
Qed.

(** C33: order of an element's vertices and of its local faces. *)
Theorem C33_local_order ty crds elVe elFaVe groups : wfMesh tol ty crds elVe elFaVe -> wfGroups elFaVe groups ->
  exists m, mkMeshOf srt tol ty crds elVe elFaVe groups None = Ok m /\ elementsOk tol ty crds elVe m.
Proof. intros W G. destruct (mesh_ok ty crds elVe elFaVe groups W G) as (m & E & _ & El & _). eauto. Qed.

(** C51: periodic boundaries.  Opposite faces of the periodic type are connected: each one's element is the neighbour of the other's,
    and lists its own element first; all other faces are as without periodic boundaries. *)
Theorem C51_periodic ty crds elVe elFaVe groups t : wfMesh tol ty crds elVe elFaVe -> wfGroups elFaVe groups ->
  wfPeriodic tol ty crds elFaVe groups t ->
  exists m, mkMeshOf srt tol ty crds elVe elFaVe groups (Some t) = Ok m /\
    facesOk elFaVe m /\ elementsOk tol ty crds elVe m /\ typesOk groups m /\
    (forall f, f < length (mFaVe m) -> exists el i o, elFace m el i = Some f /\ nth_error (mFaEl m) f = Some (el, o)) /\
    forall el i f o, elFace m el i = Some f -> elAdj m el i = Some o ->
      ((forall g, ~ periodicPair tol ty crds t m f g) -> adjOk m el i f o) /\
      forall g, periodicPair tol ty crds t m f g -> exists el' j, o = Some el' /\ elFace m el' j = Some g /\ elAdj m el' j = Some (Some el) /\
        nth_error (mFaEl m) f = Some (el, Some el') /\ nth_error (mFaEl m) g = Some (el', Some el) /\
        (forall el'' i'', elFace m el'' i'' = Some f -> (el'', i'') = (el, i)) /\
        (forall el'' i'', elFace m el'' i'' = Some g -> (el'', i'') = (el', j)).
Proof.
  intros W G Wp. destruct (mesh_common ty crds elVe elFaVe groups W G) as (c & elFa & tys & P0 & Ec & Et & Ev & S & KV & LF & FI & S1 & S2 & A1 & A2 & Lt & T).
  assert (LE : length elFaVe = length elVe) by apply W. assert (Sh : shaped ty elFaVe) by apply W. assert (ShE := shaped_map ty elFaVe Sh).
  destruct Wp as (Wp1 & Wp2 & Wp3). assert (NDv := lexLt_NoDup _ S).
  set (faVe := cFaVe c) in *. set (bnd := perFaces t tys (length faVe)). set (fk := fun f => nth f faVe []).
  assert (Bl : forall f, In f bnd <-> f < length faVe /\ nth f tys 0%N = t).
  { intros f. unfold bnd, perFaces. rewrite filter_In, in_seq, N.eqb_eq. intuition lia. }
  assert (Bk : forall f, f < length faVe -> In (fk f) faVe) by (intros; apply nth_In; auto).
  assert (Bper : forall f, In f bnd -> isFace elFaVe (fk f) /\ typeBits groups (fk f) t).
  { intros f Hf. apply Bl in Hf. destruct Hf as [Hf Hty]. split; [apply FI; auto|]. apply (T f); [apply nth_error_nth'; auto|].
    rewrite <- Hty. apply nth_error_nth'. lia. }
  assert (Fpos : forall f, f < length faVe -> exists el k ves, get2 elFaVe el k = Some ves /\ get2 elFa el k = Some f /\ fk f = sortNat ves).
  { intros f Hf. destruct (proj1 (FI (fk f)) (Bk f Hf)) as (el & k & ves & H & E). exists el, k, ves. split; auto. split; auto.
    destruct (A1 _ _ _ H) as (f' & G1 & G2). replace f with f'; auto. rewrite <- E in G2. eapply NoDup_nth_error; [exact NDv|apply nth_error_Some; congruence|].
    rewrite G2. symmetry. apply nth_error_nth'. auto. }
  assert (Bf : forall f el k, get2 elFa el k = Some f -> f < length faVe /\ exists ves, get2 elFaVe el k = Some ves /\ fk f = sortNat ves).
  { intros f el k H. assert (X : get2 elFaVe el k <> None) by (apply (get2_shape elFaVe elFa); congruence).
    destruct (get2 elFaVe el k) as [ves|] eqn:Ee; [|congruence]. destruct (A1 _ _ _ Ee) as (f' & G1 & G2). assert (f' = f) by congruence. subst f'.
    split; [apply nth_error_Some; congruence|]. exists ves. split; auto. apply nth_error_nth. auto. }
  assert (BND : forall f, In f bnd -> exists el k, get2 elFa el k = Some f /\ nth_error (cFaEl c) f = Some (el, None) /\ forall el' k', get2 elFa el' k' = Some f -> (el', k') = (el, k)).
  { intros f Hf. assert (Hl := proj1 (proj1 (Bl f) Hf)). destruct (Fpos f Hl) as (el & k & ves & H & Hg & E). exists el, k. split; auto.
    assert (U : forall el' k', get2 elFa el' k' = Some f -> (el', k') = (el, k)).
    { intros el' k' H'. destruct (Bf _ _ _ H') as (_ & ves' & Hv' & E'). apply (Wp1 (fk f) el' k' ves' el k ves); auto.
      - rewrite E'. apply sortNat_perm.
      - rewrite E. apply sortNat_perm. }
    split; auto. destruct (A2 _ _ _ Hg) as (o & _ & F). destruct o as [el'|]; cbn [faceAt] in F; [|apply F].
    exfalso. destruct F as (_ & k' & N & G1 & _). apply N. symmetry. auto. }
  assert (B0 : forall f, In f bnd -> snd (nth f (cFaEl c) (0, None)) = None).
  { intros f Hf. destruct (BND f Hf) as (el & k & _ & E & _). rewrite (nth_error_nth _ _ _ E). reflexivity. }
  assert (FV : forall k, In k faVe -> inCrds ty crds k) by (intros; apply KV; auto).
  assert (BB : forall f, In f bnd -> f < length faVe) by (intros f Hf; apply Bl; auto).
  assert (PL : forall f, In f bnd -> exists a, planeb tol ty crds (nth f faVe []) = Some a).
  { intros f Hf. destruct (Wp2 _ (Bper f Hf)) as [a Ha]. exists a. apply planeb_spec. exact Ha. }
  assert (NDb : NoDup bnd) by (apply NoDup_filter, seq_NoDup).
  assert (Opp : forall f g, In f bnd -> In g bnd -> (f <> g /\ partb tol ty crds (fk f) (fk g) = true) <-> opposite tol crds ty (fk f) (fk g)).
  { intros f g Hf Hg. assert (Q : forall x y, In x bnd -> In y bnd -> fk x = fk y -> x = y).
    { intros x y Hx Hy E. eapply NoDup_nth; [exact NDv| | |exact E]; auto. }
    split.
    - intros [N E]. apply partb_spec; auto; apply KV; auto.
    - intros O. assert (N : fk f <> fk g) by apply O. split; [intros ->; auto|]. apply partb_spec; auto; apply KV; auto. }
  assert (UN : forall i j j', i < length bnd -> j < length bnd -> j' < length bnd -> part tol ty crds faVe bnd i j = true -> part tol ty crds faVe bnd i j' = true -> j = j').
  { intros i j j' Hi Hj Hj' H H'. assert (Q : forall x, x < length bnd -> part tol ty crds faVe bnd i x = true -> opposite tol crds ty (fk (nth i bnd 0)) (fk (nth x bnd 0))).
    { intros x Hx E. unfold part in E. apply andb_prop in E. destruct E as [E1 E2]. apply Bool.negb_true_iff, Nat.eqb_neq in E1. apply Opp; try (apply nth_In; auto).
      split; auto. intros E. apply E1. eapply NoDup_nth; eauto. }
    assert (E : fk (nth j bnd 0) = fk (nth j' bnd 0)).
    { apply (Wp3 (fk (nth i bnd 0))); auto; try (apply Bper; apply nth_In; auto); apply Q; auto. }
    assert (nth j bnd 0 = nth j' bnd 0) by (eapply NoDup_nth; [exact NDv| | |exact E]; apply BB; apply nth_In; auto).
    eapply NoDup_nth; eauto. }
  assert (L1 : length elFa = length elVe) by (rewrite <- LE, <- (map_length (@length _) elFa), S1, map_length; auto).
  assert (OWN : forall f, In f bnd -> own (cFaEl c) f < length elFa /\ forall el k, get2 elFa el k = Some f -> el = own (cFaEl c) f).
  { intros f Hf. destruct (BND f Hf) as (el & k & H & E & U). unfold own. rewrite (nth_error_nth _ _ _ E). cbn [fst]. split.
    - unfold get2 in H. destruct (nth_error elFa el) eqn:X; [|discriminate]. apply nth_error_Some. congruence.
    - intros el' k' H'. specialize (U _ _ H'). congruence. }
  destruct (joins_ok tol ty crds faVe FV bnd BB PL UN (cFaEl c) elFa (cElFaEl c) LF (eq_trans S1 (eq_sym S2)) NDb OWN) as (fe & ef & gt & Ej & Lfe & Sef & Nfe & Nef & Egt).
  set (par := faPar tol ty crds faVe bnd) in *.
  assert (Par : forall f g, par f = Some g <-> In f bnd /\ In g bnd /\ opposite tol crds ty (fk f) (fk g)).
  { intros f g. unfold par, faPar. destruct (in_dec Nat.eq_dec f bnd) as [Hf|Hf]; [|split; [discriminate|tauto]]. split.
    - intros E. apply find_some in E. destruct E as [Hg E]. apply andb_prop in E. destruct E as [E1 E2]. apply Bool.negb_true_iff, Nat.eqb_neq in E1.
      split; auto. split; auto. apply Opp; auto.
    - intros (_ & Hg & O). destruct (find _ bnd) as [x|] eqn:E.
      + apply find_some in E. destruct E as [Hx E]. apply andb_prop in E. destruct E as [E1 E2]. apply Bool.negb_true_iff, Nat.eqb_neq in E1.
        assert (Ox : opposite tol crds ty (fk f) (fk x)) by (apply Opp; auto). f_equal.
        apply (proj1 (NoDup_nth faVe []) NDv); [apply BB; exact Hx|apply BB; exact Hg|]. exact (Wp3 (fk f) (fk x) (fk g) (Bper f Hf) (Bper x Hx) (Bper g Hg) Ox O).
      + exfalso. eapply find_none in E; [|exact Hg]. apply Opp in O; auto. destruct O as [N O]. fold (fk f) (fk g) in E. rewrite O in E.
        rewrite (proj2 (Nat.eqb_neq f g) N) in E. discriminate. }
  assert (Sefa : map (@length _) ef = map (@length _) elFaVe) by congruence.
  destruct (norm_all srt SRT tol TOL ty crds elVe elFaVe faVe elFa ef W S1 Sefa A1) as (els & En & Le & Oe).
  destruct (reverse_ok gt (map sortFaEl fe)) as (fin & Er & Lfin & Nfin).
  { rewrite Egt. apply NoDup_filter. auto. }
  { intros f Hf. rewrite Egt in Hf. apply filter_In in Hf. rewrite map_length, Lfe, LF. apply BB. tauto. }
  set (m := mkMesh faVe fin tys els). exists m.
  assert (L2 : length ef = length elVe) by (rewrite <- LE, <- (map_length (@length _) ef), Sefa, map_length; auto).
  assert (FEL : forall f p, nth_error (cFaEl c) f = Some p ->
    nth_error (mFaEl m) f = Some (match par f with Some g => (own0 (cFaEl c) f, Some (own0 (cFaEl c) g)) | None => sortFaEl p end)).
  { intros f p Hp. assert (Hl : f < length (cFaEl c)) by (apply nth_error_Some; congruence). specialize (Nfe f Hl).
    cbn [mFaEl m]. rewrite (Nfin f (sortFaEl (newFaEl tol ty crds faVe bnd (cFaEl c) f))) by (rewrite nth_error_map, Nfe; reflexivity). f_equal.
    unfold newFaEl. fold par. change own0 with own.
    destruct (par f) as [g|] eqn:Ep.
    - cbn [sortFaEl]. destruct (Nat.ltb_spec (own (cFaEl c) g) (own (cFaEl c) f)) as [L|L].
      + destruct (in_dec Nat.eq_dec f gt) as [X|X]; [reflexivity|]. exfalso. apply X. rewrite Egt. apply filter_In. split; [apply Par in Ep; tauto|].
        unfold isGt. fold par. rewrite Ep. apply Nat.ltb_lt. auto.
      + destruct (in_dec Nat.eq_dec f gt) as [X|X]; [|reflexivity]. exfalso. rewrite Egt in X. apply filter_In in X. destruct X as [_ X].
        unfold isGt in X. fold par in X. rewrite Ep in X. apply Nat.ltb_lt in X. lia.
    - rewrite (nth_error_nth _ _ _ Hp). destruct (in_dec Nat.eq_dec f gt) as [X|X]; [|reflexivity]. exfalso. rewrite Egt in X. apply filter_In in X. destruct X as [_ X].
      unfold isGt in X. fold par in X. rewrite Ep in X. discriminate. }
  assert (ADJ : forall el k f o, get2 elFa el k = Some f -> get2 (cElFaEl c) el k = Some o ->
    get2 ef el k = Some (match par f with Some g => Some (own0 (cFaEl c) g) | None => o end)).
  { intros el k f o H1 H2. rewrite (Nef _ _ _ H2). unfold newAdj. rewrite H1. reflexivity. }
  assert (PARb : forall f g, par f = Some g -> snd (nth f (cFaEl c) (0, None)) = None /\ par g = Some f /\ f <> g /\ (exists el k, get2 elFa el k = Some g)).
  { intros f g Hp. assert (Hp' := Hp). apply Par in Hp'. destruct Hp' as (Hf & Hg & O). split; [auto|].
    assert (O' := proj2 (Opp f g Hf Hg) O). destruct O' as [N Pb]. split; [|split; [auto|]].
    - apply Par. split; auto. split; auto. apply Opp; auto. split; auto. rewrite partb_sym. auto.
    - destruct (BND g Hg) as (el & k & H & _). eauto. }
  assert (LR : forall el fa, nth_error elFa el = Some fa -> length fa = nElFas ty) by (intros el' fa H; eapply (shape_row elFa); [rewrite S1; exact ShE|exact H]).
  assert (LR' : forall el ad, nth_error ef el = Some ad -> length ad = nElFas ty) by (intros el' ad H; eapply (shape_row ef); [rewrite Sefa; exact ShE|exact H]).
  assert (PP : forall f g, periodicPair tol ty crds t m f g <-> par f = Some g).
  { intros f g. rewrite Par. unfold periodicPair. cbn [mSpFa mFaVe m]. rewrite !Bl. split.
    - intros (H1 & H2 & k & k' & H3 & H4 & O). rewrite (nth_error_nth _ _ 0%N H1), (nth_error_nth _ _ 0%N H2).
      unfold fk. rewrite (nth_error_nth _ _ [] H3), (nth_error_nth _ _ [] H4). split; [split; auto; apply nth_error_Some; congruence|]. split; [split; auto; apply nth_error_Some; congruence|auto].
    - intros ((H1 & E1) & (H2 & E2) & O). split; [rewrite <- E1; apply nth_error_nth'; lia|]. split; [rewrite <- E2; apply nth_error_nth'; lia|].
      exists (fk f), (fk g). split; [apply nth_error_nth'; auto|]. split; [apply nth_error_nth'; auto|auto]. }
  assert (EL : elementsOk tol ty crds elVe m).
  { split; [exact Le|]. intros el ve H. assert (el < length elVe) by (apply nth_error_Some; congruence).
    destruct (nth_error elFa el) as [fa|] eqn:H2; [|apply nth_error_None in H2; lia].
    destruct (nth_error ef el) as [ad|] eqn:H3; [|apply nth_error_None in H3; lia].
    destruct (Oe el ve fa ad H H2 H3) as (e & Ee & O1 & O2 & O3 & O4 & O5 & O6 & O7). exists e. cbn [mEls mFaVe m]. auto 10. }
  assert (AD : forall el i f o, elFace m el i = Some f -> elAdj m el i = Some o ->
      ((forall g, ~ periodicPair tol ty crds t m f g) -> adjOk m el i f o) /\
      forall g, periodicPair tol ty crds t m f g -> exists el' j, o = Some el' /\ elFace m el' j = Some g /\ elAdj m el' j = Some (Some el) /\
        nth_error (mFaEl m) f = Some (el, Some el') /\ nth_error (mFaEl m) g = Some (el', Some el) /\
        (forall el'' i'', elFace m el'' i'' = Some f -> (el'', i'') = (el, i)) /\
        (forall el'' i'', elFace m el'' i'' = Some g -> (el'', i'') = (el', j))).
  { intros el i f o H1 H2. split.
    + intros NP. apply (final_adjOk tol ty crds elVe elFa ef m) with (faEl0 := cFaEl c) (elFaEl0 := cElFaEl c) (par := par); auto.
      destruct (par f) as [g|] eqn:Ep; auto. exfalso. apply (NP g). apply PP. auto.
    + intros g Hpp. apply PP in Hpp.
      apply (final_par tol ty crds elVe elFa ef m) with (faEl0 := cFaEl c) (elFaEl0 := cElFaEl c) (par := par); auto. }
  split; [|split; [|split; [|split; [|split]]]].
  - unfold mkMeshOf. destruct W as (P & _). apply Nat.ltb_lt in P. rewrite (proj2 (Nat.ltb_lt _ _) P0), P. cbn [check bind]. rewrite Ec. cbn [bind]. fold faVe. rewrite Et. cbn [bind].
    rewrite Ev. cbn [bind]. unfold setPeriodicBnds. rewrite bnd_ok by auto. cbn [bind]. fold bnd.
    rewrite (findPairs_ok tol ty crds faVe FV bnd BB PL UN). cbn [bind]. rewrite (checkPairs_ok tol ty crds faVe FV bnd BB PL UN). cbn [bind]. rewrite Ej. cbn [bind].
    unfold normOrder. rewrite sorted_rows by (intros k Hk; apply KV; auto). rewrite En. cbn [bind]. rewrite Er. reflexivity.
  - split; [exact S|]. split; [exact FI|]. cbn [mFaEl mFaVe mSpFa m]. rewrite Lfin, map_length, Lfe. auto.
  - exact EL.
  - intros f k t' Hk Ht. apply (T f); auto.
  - intros f Hf. destruct (faces_all ty crds elVe elFaVe faVe elFa ef fin tys els NDv LE S1 Sefa FI A1 Oe f Hf) as (el & i & E).
    destruct (face_owner ty crds elVe m el i f EL E) as (o & Eo). destruct (AD el i f o E Eo) as [D1 D2]. destruct (par f) as [g|] eqn:Ep.
    + destruct (D2 g) as (el' & j & _ & _ & _ & X & _); [apply PP; exact Ep|]. eauto 10.
    + apply (adj_owner m el i f o E). apply D1. intros g Hg. apply PP in Hg. congruence.
  - exact AD.
Qed.

End Props.

Print Assumptions C32_connectivity.
Print Assumptions C33_local_order.
Print Assumptions C51_periodic.

(** ** Examples *)

Definition allPos (E : list (list (list nat))) : list (nat * nat * list nat) :=
  concat (mapi (fun el row => mapi (fun fa ves => (el, fa, ves)) 0 row) 0 E).

Lemma allPos_in E el fa ves : get2 E el fa = Some ves <-> In (el, fa, ves) (allPos E).
Proof.
  unfold allPos, get2. rewrite in_concat. split.
  - destruct (nth_error E el) as [row|] eqn:Er; [|discriminate]. intros H. exists (mapi (fun fa ves => (el, fa, ves)) 0 row). split.
    + apply (mapi_in (fun el row => mapi (fun fa ves => (el, fa, ves)) 0 row)). exists el, row. auto.
    + apply (mapi_in (fun fa ves => (el, fa, ves))). exists fa, ves. auto.
  - intros (x & Hx & Hi). apply (mapi_in (fun el row => mapi (fun fa ves => (el, fa, ves)) 0 row)) in Hx. destruct Hx as (el' & row & Er & ->).
    apply (mapi_in (fun fa ves => (0 + el', fa, ves))) in Hi. destruct Hi as (fa' & ves' & Ef & E'). inversion E'; subst. cbn [Nat.add]. rewrite Er. auto.
Qed.

Definition posEqb (a b : nat * nat * list nat) : bool := (fst (fst a) =? fst (fst b)) && (snd (fst a) =? snd (fst b)).
Definition sameb (a b : nat * nat * list nat) : bool := if list_eq_dec Nat.eq_dec (sortNat (snd a)) (sortNat (snd b)) then true else false.
Definition conformingb (E : list (list (list nat))) : bool :=
  let l := allPos E in
  forallb (fun a => forallb (fun b => forallb (fun c =>
    negb (sameb a b && sameb b c) || posEqb a b || posEqb b c || posEqb a c) l) l) l.
Lemma conformingb_ok E : conformingb E = true -> conforming E.
Proof.
  unfold conformingb. intros H e0 f0 v0 e1 f1 v1 e2 f2 v2 H0 H1 H2 P1 P2. apply allPos_in in H0, H1, H2.
  rewrite forallb_forall in H. specialize (H _ H0). rewrite forallb_forall in H. specialize (H _ H1). rewrite forallb_forall in H. specialize (H _ H2).
  unfold sameb, posEqb in H. cbn [fst snd] in H. rewrite (sortNat_unique v0 v1 P1), (sortNat_unique v1 v2 P2) in H.
  destruct (list_eq_dec Nat.eq_dec (sortNat v2) (sortNat v2)) as [_|X]; [|congruence]. cbn [andb negb orb] in H.
  apply Bool.orb_true_iff in H. rewrite Bool.orb_true_iff, !Bool.andb_true_iff, !Nat.eqb_eq in H.
  destruct H as [[[-> ->]|[-> ->]]|[-> ->]]; auto.
Qed.

(** Unit square of two triangles; the vertices of the second one are in clockwise order.  Bottom and left boundary, diagonal. *)
Definition exTol : Q := 1 # 1000.
Definition exCrds : list pt := [(0, 0, 0); (1, 0, 0); (1, 1, 0); (0, 1, 0)]%Q.
Definition exElVe : list (list nat) := [[1; 2; 0]; [0; 3; 2]].
Definition exElFaVe : list (list (list nat)) := [[[1; 2]; [2; 0]; [0; 1]]; [[0; 3]; [3; 2]; [2; 0]]].
Definition exGroups : list (N * list (list nat)) := [(1%N, [[1; 0]; [0; 3]]); (4%N, [[2; 0]; [0; 1]])].

Example C32_example_wf : wfMesh exTol TRIA3 exCrds exElVe exElFaVe /\ wfGroups exElFaVe exGroups.
Proof.
  split.
  - split; [cbn; lia|]. split; [reflexivity|]. split; [|split; [apply conformingb_ok; reflexivity|]].
    + intros row [<-|[<-|[]]]; (split; [reflexivity|]); cbn; intros ves H; intuition (subst; reflexivity).
    + intros [|[|el]] ve row H1 H2; inversion H1; inversion H2; subst; [| |destruct el; discriminate].
      * split; [repeat constructor; cbn; intuition discriminate|]. split; [cbn; intros; intuition lia|]. exists [0; 1; 2].
        split; [apply NoDup_Permutation; [repeat constructor; cbn; intuition discriminate|repeat constructor; cbn; intuition discriminate|intros x; cbn; intuition]|]. split.
        -- exists 0, 1, 2. split; auto. vm_compute. reflexivity.
        -- vm_compute. eapply perm_trans; [apply (Permutation_cons_append _ [1; 2])|]. cbn. eapply perm_trans; [apply perm_swap|]. apply perm_skip. apply perm_swap.
      * split; [repeat constructor; cbn; intuition discriminate|]. split; [cbn; intros; intuition lia|]. exists [0; 2; 3].
        split; [apply NoDup_Permutation; [repeat constructor; cbn; intuition discriminate|repeat constructor; cbn; intuition discriminate|intros x; cbn; intuition]|]. split.
        -- exists 0, 2, 3. split; auto. vm_compute. reflexivity.
        -- vm_compute. apply Permutation_sym. eapply perm_trans; [apply perm_swap|]. apply Permutation_sym. eapply perm_trans; [apply perm_swap|]. apply perm_skip. apply perm_swap.
  - intros t fs [H|[H|[]]]; inversion H; subst; (split; [vm_compute; repeat constructor; cbn; intuition discriminate|]); intros f [<-|[<-|[]]].
    + exists 0, 2, [0; 1]. split; auto. apply perm_swap.
    + exists 1, 0, [0; 3]. auto.
    + exists 0, 1, [2; 0]. auto.
    + exists 0, 2, [0; 1]. auto.
Qed.

Example C32_example_run : mkMeshOf insertionSort exTol TRIA3 exCrds exElVe exElFaVe exGroups None =
  Ok (mkMesh [[0; 1]; [0; 2]; [0; 3]; [1; 2]; [2; 3]]
             [(0, None); (0, Some 1); (1, None); (0, None); (1, None)]
             [5; 4; 1; 0; 0]%N
             [([0; 1; 2], [0; 3; 1], [None; None; Some 1]); ([0; 2; 3], [1; 4; 2], [Some 0; None; None])]).
Proof. vm_compute. reflexivity. Qed.

(** Two unit squares, periodic in both directions. *)
Definition perCrds : list pt := [(0, 0, 0); (1, 0, 0); (2, 0, 0); (0, 1, 0); (1, 1, 0); (2, 1, 0)]%Q.
Definition perElVe : list (list nat) := [[0; 1; 4; 3]; [1; 2; 5; 4]].
Definition perElFaVe : list (list (list nat)) := [[[0; 1]; [1; 4]; [4; 3]; [3; 0]]; [[1; 2]; [2; 5]; [5; 4]; [4; 1]]].
Definition perGroups : list (N * list (list nat)) := [(6%N, [[0; 1]; [1; 2]; [3; 4]; [4; 5]; [0; 3]; [2; 5]])].
Definition perTol : Q := 1 # 1000.

Lemma permNat_dec (a b : list nat) : sortNat a = sortNat b -> Permutation a b.
Proof. intros H. eapply perm_trans; [apply sortNat_perm|]. rewrite H. apply Permutation_sym, sortNat_perm. Qed.

Example C51_example_wf : wfMesh perTol QUAD4R perCrds perElVe perElFaVe /\ wfGroups perElFaVe perGroups /\
  wfPeriodic perTol QUAD4R perCrds perElFaVe perGroups 6%N.
Proof.
  split; [|split].
  - split; [cbn; lia|]. split; [reflexivity|]. split; [|split; [apply conformingb_ok; reflexivity|]].
    + intros row [<-|[<-|[]]]; (split; [reflexivity|]); cbn; intros ves H; intuition (subst; reflexivity).
    + intros [|[|el]] ve row H1 H2; inversion H1; inversion H2; subst; [| |destruct el; discriminate].
      * split; [repeat constructor; cbn; intuition discriminate|]. split; [cbn; intros; intuition lia|]. exists [0; 1; 4; 3]. split; [apply Permutation_refl|]. split.
        -- exists 0, 1, 4, 3. split; auto. vm_compute. auto 10.
        -- vm_compute. apply Permutation_refl.
      * split; [repeat constructor; cbn; intuition discriminate|]. split; [cbn; intros; intuition lia|]. exists [1; 2; 5; 4]. split; [apply Permutation_refl|]. split.
        -- exists 1, 2, 5, 4. split; auto. vm_compute. auto 10.
        -- vm_compute. apply Permutation_refl.
  - intros t fs [H|[]]; inversion H; subst. split; [vm_compute; repeat constructor; cbn; intuition discriminate|].
    intros f Hf. assert (X : In (sortNat f) (map (fun p => sortNat (snd p)) (allPos perElFaVe))).
    { cbn [In] in Hf. vm_compute. repeat destruct Hf as [<-|Hf]; vm_compute; auto 20. }
    apply in_map_iff in X. destruct X as ([[el fa] ves] & E & Hi). apply allPos_in in Hi. exists el, fa, ves. split; auto. apply permNat_dec. auto.
  - (* periodic faces *)
    assert (Per : forall k, isFace perElFaVe k /\ typeBits perGroups k 6%N -> In k [[0; 1]; [1; 2]; [3; 4]; [4; 5]; [0; 3]; [2; 5]]).
    { intros k [(el & fa & ves & _ & ->) T]. destruct (proj1 (T 1%N) eq_refl) as (g & fs & f & Hg & Hf & P & _).
      destruct Hg as [Hg|[]]. inversion Hg; subst. replace (sortNat ves) with (sortNat f); [|rewrite (sortNat_unique _ _ P); apply sortNat_idem].
      cbn [In] in Hf. vm_compute. repeat destruct Hf as [<-|Hf]; vm_compute; auto 20. }
    split; [|split].
    + intros k el fa ves el' fa' ves' Pk H H' P P'. apply Per in Pk. apply allPos_in in H, H'.
      assert (X : forallb (fun k => forallb (fun a => forallb (fun b => negb (sameb (0, 0, k) a && sameb (0, 0, k) b) || posEqb a b) (allPos perElFaVe)) (allPos perElFaVe))
                    [[0; 1]; [1; 2]; [3; 4]; [4; 5]; [0; 3]; [2; 5]] = true) by (vm_compute; reflexivity).
      rewrite forallb_forall in X. specialize (X _ Pk). rewrite forallb_forall in X. specialize (X _ H). rewrite forallb_forall in X. specialize (X _ H').
      unfold sameb, posEqb in X. cbn [fst snd] in X. rewrite (sortNat_unique _ _ P), (sortNat_unique _ _ P') in X.
      destruct (list_eq_dec Nat.eq_dec (sortNat k) (sortNat k)) as [_|Y]; [|congruence]. cbn [andb negb orb] in X. rewrite Bool.andb_true_iff, !Nat.eqb_eq in X. destruct X. congruence.
    + intros k Pk. apply Per in Pk.
      assert (X : forallb (fun k => match planeb perTol QUAD4R perCrds k with Some _ => true | None => false end) [[0; 1]; [1; 2]; [3; 4]; [4; 5]; [0; 3]; [2; 5]] = true) by (vm_compute; reflexivity).
      rewrite forallb_forall in X. specialize (X _ Pk). destruct (planeb perTol QUAD4R perCrds k) as [x|] eqn:E; [|discriminate]. exists x. apply planeb_spec. auto.
    + intros k g g' Pk Pg Pg' O O'. apply Per in Pk, Pg, Pg'.
      assert (ND : forall x, In x [[0; 1]; [1; 2]; [3; 4]; [4; 5]; [0; 3]; [2; 5]] -> NoDup x).
      { intros x Hx. cbn [In] in Hx. repeat destruct Hx as [<-|Hx]; try destruct Hx; repeat constructor; cbn; intuition discriminate. }
      assert (X : forallb (fun k => forallb (fun a => forallb (fun b =>
          negb (partb perTol QUAD4R perCrds k a && partb perTol QUAD4R perCrds k b) || (if list_eq_dec Nat.eq_dec k a then true else false) ||
          (if list_eq_dec Nat.eq_dec k b then true else false) || if list_eq_dec Nat.eq_dec a b then true else false)
          [[0; 1]; [1; 2]; [3; 4]; [4; 5]; [0; 3]; [2; 5]]) [[0; 1]; [1; 2]; [3; 4]; [4; 5]; [0; 3]; [2; 5]]) [[0; 1]; [1; 2]; [3; 4]; [4; 5]; [0; 3]; [2; 5]] = true) by (vm_compute; reflexivity).
      rewrite forallb_forall in X. specialize (X _ Pk). rewrite forallb_forall in X. specialize (X _ Pg). rewrite forallb_forall in X. specialize (X _ Pg').
      assert (N := proj1 O). assert (N' := proj1 O'). apply partb_spec in O; auto. apply partb_spec in O'; auto. rewrite O, O' in X. cbn [andb negb orb] in X.
      destruct (list_eq_dec Nat.eq_dec k g); [congruence|]. destruct (list_eq_dec Nat.eq_dec k g'); [congruence|]. cbn [orb] in X.
      destruct (list_eq_dec Nat.eq_dec g g'); [auto|discriminate].
Qed.

Example C51_example_run : mkMeshOf insertionSort perTol QUAD4R perCrds perElVe perElFaVe perGroups (Some 6%N) =
  Ok (mkMesh [[0; 1]; [0; 3]; [1; 2]; [1; 4]; [2; 5]; [3; 4]; [4; 5]]
             [(0, Some 0); (0, Some 1); (1, Some 1); (0, Some 1); (1, Some 0); (0, Some 0); (1, Some 1)]
             [6; 6; 6; 0; 6; 6; 6]%N
             [([0; 1; 4; 3], [0; 3; 5; 1], [Some 0; Some 1; Some 0; Some 1]); ([1; 2; 5; 4], [2; 4; 6; 3], [Some 1; Some 0; Some 1; Some 0])]).
Proof. vm_compute. reflexivity. Qed.
