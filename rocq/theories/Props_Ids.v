(** Properties of ids: faces and vertices of adjacent elements (C34), tags of Gmsh (C45). *)
From Coq Require Import QArith Qabs Sorting.Sorted Sorting.Permutation Lqa.
From Verif Require Import Util Partition MeshConn MeshSpec MeshSort MeshFaces MeshNorm MeshNormEl MeshTypes MeshHex MeshOrder MeshAll MeshPer MeshFinal Props_Mesh.
Open Scope nat_scope.

(** ** Local ids of faces in the adjacent element *)

(** Two elements are adjacent through one of their local faces only. *)
Definition oneShared (m : mesh) : Prop :=
  forall el el' i j, elAdj m el i = Some (Some el') -> elAdj m el j = Some (Some el') -> i = j.

Lemma findFace_ok row el n ad k : (forall i, ad <= i < k -> nth_error row i <> Some (Some el)) -> nth_error row k = Some (Some el) ->
  ad <= k < ad + n -> ad + n <= length row -> findFace row el n ad = Ok k.
Proof.
  revert ad. induction n as [|n IH]; intros ad H E B L; [lia|]. cbn [findFace].
  destruct (Nat.eq_dec ad k) as [->|N].
  - rewrite (rd_some _ _ _ E). cbn [bind]. rewrite Nat.eqb_refl. reflexivity.
  - destruct (nth_error row ad) as [o|] eqn:Eo; [|apply nth_error_None in Eo; lia]. rewrite (rd_some _ _ _ Eo). cbn [bind].
    assert (X : match o with Some x => x =? el | None => false end = false).
    { destruct o as [x|]; auto. apply Nat.eqb_neq. intros ->. apply (H ad); [lia|auto]. }
    rewrite X. rewrite (proj2 (Nat.eqb_neq n 0)) by lia. cbn [negb check bind]. apply IH; auto; [|lia|lia]. intros i Hi. apply H. lia.
Qed.

Lemma findFace_some row el n ad j : findFace row el n ad = Ok j -> nth_error row j = Some (Some el).
Proof.
  revert ad. induction n as [|n IH]; intros ad H; cbn [findFace] in H; [discriminate|].
  apply bind_ok in H. destruct H as (o & E & H). apply rd_inv in E.
  destruct (match o with Some x => x =? el | None => false end) eqn:X.
  - destruct o as [x|]; [|discriminate]. apply Nat.eqb_eq in X. congruence.
  - apply bind_ok in H. destruct H as (u & _ & H). eauto.
Qed.

Section Ids.
Variable srt : forall A : Type, (A -> A -> bool) -> list A -> list A.
Hypothesis SRT : isSort srt.
Variable tol : Q.
Hypothesis TOL : (0 < tol)%Q.
Variable ty : elType.
Variable crds : list pt.
Variable elVe : list (list nat).
Variable elFaVe : list (list (list nat)).
Variable groups : list (N * list (list nat)).
Hypothesis WM : wfMesh tol ty crds elVe elFaVe.
Hypothesis WG : wfGroups elFaVe groups.
Variable m : mesh.
Hypothesis MK : mkMeshOf srt tol ty crds elVe elFaVe groups None = Ok m.

Lemma facts : facesOk elFaVe m /\ elementsOk tol ty crds elVe m /\ (forall el i f o, elFace m el i = Some f -> elAdj m el i = Some o -> adjOk m el i f o).
Proof.
  destruct (mesh_ok srt SRT tol TOL ty crds elVe elFaVe groups WM WG) as (m' & E & F & El & T & _ & A).
  rewrite MK in E. inversion E; subst m'. auto.
Qed.

Lemma el_row el e : nth_error (mEls m) el = Some e -> exists ve, nth_error elVe el = Some ve /\ Permutation ve (vesOf e) /\ NoDup (vesOf e) /\
  placed tol crds ty (vesOf e) /\ length (fasOf e) = nElFas ty /\ length (adsOf e) = nElFas ty /\
  map (fun f => nth_error (mFaVe m) f) (fasOf e) = map Some (facesOf ty (vesOf e)).
Proof.
  intros H. destruct facts as (_ & (L & El) & _). assert (Hl : el < length elVe) by (rewrite <- L; apply nth_error_Some; congruence).
  destruct (nth_error elVe el) as [ve|] eqn:Ev; [|apply nth_error_None in Ev; lia].
  destruct (El el ve Ev) as (e' & Ee & P1 & P2 & P3 & P4 & P5). assert (e' = e) by congruence. subst e'. exists ve. split; auto. split; auto. split; auto.
  destruct WM as (_ & LE & _ & _ & W). destruct (nth_error elFaVe el) as [row|] eqn:Er; [|apply nth_error_None in Er; lia].
  destruct (W el ve row Ev Er) as (ND & _). eapply Permutation_NoDup; eauto.
Qed.

Lemma adj_face el i o : elAdj m el i = Some o -> exists f, elFace m el i = Some f.
Proof.
  unfold elAdj, elFace. destruct (nth_error (mEls m) el) as [e|] eqn:Ee; [|discriminate]. intros H.
  destruct (el_row el e Ee) as (ve & _ & _ & _ & _ & L1 & L2 & _). destruct (nth_error (fasOf e) i) eqn:E; [eauto|].
  apply nth_error_None in E. assert (i < length (adsOf e)) by (apply nth_error_Some; congruence). lia.
Qed.

Lemma faIdAd_ok el i el' : oneShared m -> elAdj m el i = Some (Some el') ->
  exists j, faIdAd ty (mEls m) el i = Ok j /\ elFace m el' j = elFace m el i.
Proof.
  intros OS H. destruct (adj_face _ _ _ H) as [f Hf]. destruct facts as (_ & _ & A). specialize (A el i f _ Hf H). cbn [adjOk] in A.
  destruct A as (N & _ & j & J1 & J2 & _). exists j. split; [|congruence].
  unfold faIdAd. unfold elAdj in H. destruct (nth_error (mEls m) el) as [e|] eqn:Ee; [|discriminate].
  rewrite (rd_some _ _ _ Ee). cbn [bind]. unfold adsOf in H. rewrite (rd_some _ _ _ H). cbn [bind valid].
  assert (J2' := J2). unfold elAdj in J2. destruct (nth_error (mEls m) el') as [a|] eqn:Ea; [|discriminate].
  rewrite (rd_some _ _ _ Ea). cbn [bind]. destruct (el_row el' a Ea) as (_ & _ & _ & _ & _ & _ & L2 & _). unfold adsOf in *.
  apply findFace_ok; auto.
  - intros k Hk X. assert (k = j); [|lia]. apply (OS el' el k j); auto. unfold elAdj. rewrite Ea. auto.
  - assert (j < length (snd a)) by (apply nth_error_Some; congruence). lia.
  - lia.
Qed.

(** C34, faces: the id found for an interior face is the local id of the same face in the adjacent element. *)
Theorem C34_face_ids off els fas : oneShared m -> length els = length fas ->
  (forall k el i, nth_error els k = Some el -> nth_error fas k = Some i -> exists el', elAdj m (el + off) i = Some (Some el')) ->
  exists ids, getFaIdsAd ty (mEls m) off els fas = Ok ids /\ length ids = length els /\
    forall k el i el' j, nth_error els k = Some el -> nth_error fas k = Some i -> nth_error ids k = Some j ->
      elAdj m (el + off) i = Some (Some el') -> elFace m el' j = elFace m (el + off) i /\ elFace m el' j <> None.
Proof.
  intros OS L H. unfold getFaIdsAd.
  destruct (mapM_ok (fun p => faIdAd ty (mEls m) (fst p + off) (snd p)) (fun _ _ => True) (combine els fas)) as (ids & E & _).
  { intros [el i] Hp. apply (nth_error_comb_in els fas el i L) in Hp. destruct Hp as (k & H1 & H2). destruct (H k el i H1 H2) as [el' A].
    destruct (faIdAd_ok _ _ _ OS A) as (j & Ej & _). exists j. auto. }
  exists ids. destruct (mapM_nth _ _ _ E) as [Le Ne]. rewrite combine_length in Le. split; [exact E|]. split; [lia|].
  intros k el i el' j H1 H2 H3 A. destruct (faIdAd_ok _ _ _ OS A) as (j' & Ej & Fj).
  destruct (Ne k (el, i)) as (b & Eb & Hb); [rewrite nth_error_comb by auto; rewrite H1, H2; reflexivity|]. cbn [fst snd] in Eb.
  assert (j' = j) by congruence. subst j'. split; auto. rewrite Fj. destruct (adj_face _ _ _ A) as [f ->]. discriminate.
Qed.

(** *** Simplices with different vertices share at most one face *)

Lemma face_verts el e i f : nth_error (mEls m) el = Some e -> elFace m el i = Some f ->
  exists r, nth_error (refFaces ty) i = Some r /\ nth_error (mFaVe m) f = Some (sortNat (map (fun k => nth k (vesOf e) 0) r)).
Proof.
  intros He Hf. unfold elFace in Hf. rewrite He in Hf. destruct (el_row el e He) as (_ & _ & _ & _ & _ & _ & _ & Kf).
  assert (X : nth_error (map (fun f => nth_error (mFaVe m) f) (fasOf e)) i = Some (nth_error (mFaVe m) f)) by (rewrite nth_error_map, Hf; reflexivity).
  rewrite Kf in X. unfold facesOf in X. rewrite !nth_error_map in X. destruct (nth_error (refFaces ty) i) as [r|] eqn:Er; [|discriminate].
  exists r. split; auto. inversion X. auto.
Qed.

Lemma simplex_cover i j r s : ty = TRIA3 \/ ty = TET4 -> nth_error (refFaces ty) i = Some r -> nth_error (refFaces ty) j = Some s -> i <> j ->
  forall k, k < nElVes ty -> In k r \/ In k s.
Proof.
  intros [T|T]; rewrite T; intros Hr Hs N k Hk; cbn [nElVes] in Hk.
  - destruct i as [|[|[|i]]]; inversion Hr; subst; try (destruct i; discriminate);
      destruct j as [|[|[|j]]]; inversion Hs; subst; try (destruct j; discriminate); try lia;
      destruct k as [|[|[|k]]]; try lia; cbn; auto.
  - destruct i as [|[|[|[|i]]]]; inversion Hr; subst; try (destruct i; discriminate);
      destruct j as [|[|[|[|j]]]]; inversion Hs; subst; try (destruct j; discriminate); try lia;
      destruct k as [|[|[|[|k]]]]; try lia; cbn; auto.
Qed.

Lemma adj_verts el el' i e e' v : elAdj m el i = Some (Some el') -> nth_error (mEls m) el = Some e -> nth_error (mEls m) el' = Some e' ->
  (exists r k, nth_error (refFaces ty) i = Some r /\ In k r /\ v = nth k (vesOf e) 0) -> In v (vesOf e').
Proof.
  intros H He He' (r & k & Hr & Hk & ->). destruct (adj_face _ _ _ H) as [f Hf]. destruct facts as (_ & _ & A). specialize (A el i f _ Hf H).
  destruct A as (_ & _ & j & J1 & _). destruct (face_verts _ _ _ _ He Hf) as (r1 & R1 & V1). assert (r1 = r) by congruence. subst r1.
  destruct (face_verts _ _ _ _ He' J1) as (r2 & R2 & V2). rewrite V1 in V2. injection V2 as V2.
  assert (X : In (nth k (vesOf e) 0) (sortNat (map (fun k => nth k (vesOf e') 0) r2))).
  { rewrite <- V2. eapply Permutation_in; [apply sortNat_perm|]. apply (in_map (fun k => nth k (vesOf e) 0)). auto. }
  eapply Permutation_in in X; [|apply Permutation_sym, sortNat_perm]. apply in_map_iff in X. destruct X as (q & Eq & Hq). rewrite <- Eq. apply nth_In.
  destruct (el_row el' e' He') as (_ & _ & _ & _ & Pl & _). rewrite (placed_len tol crds ty _ Pl).
  clear - R2 Hq. apply nth_error_In in R2. destruct ty; cbn in R2; repeat (destruct R2 as [<-|R2]; [cbn in Hq; cbn; intuition lia|]); destruct R2.
Qed.

Lemma oneShared_simplex : ty = TRIA3 \/ ty = TET4 ->
  (forall el el' ve ve', nth_error elVe el = Some ve -> nth_error elVe el' = Some ve' -> Permutation ve ve' -> el = el') -> oneShared m.
Proof.
  intros T D el el' i j Hi Hj. destruct (Nat.eq_dec i j) as [|N]; auto. exfalso.
  destruct (adj_face _ _ _ Hi) as [f Hf]. destruct facts as (_ & _ & A). pose proof (A el i f _ Hf Hi) as (Nel & _ & q & Q1 & _).
  destruct (adj_face _ _ _ Hj) as [g Hg].
  assert (exists e, nth_error (mEls m) el = Some e) as [e He] by (unfold elFace in Hf; destruct (nth_error (mEls m) el); [eauto|discriminate]).
  assert (exists e', nth_error (mEls m) el' = Some e') as [e' He'] by (unfold elFace in Q1; destruct (nth_error (mEls m) el'); [eauto|discriminate]).
  destruct (face_verts _ _ _ _ He Hf) as (r & Hr & _). destruct (face_verts _ _ _ _ He Hg) as (s & Hs & _).
  destruct (el_row el e He) as (ve & Hve & P & ND & Pl & _). destruct (el_row el' e' He') as (ve' & Hve' & P' & ND' & Pl' & _).
  apply Nel. symmetry. apply (D el el' ve ve' Hve Hve'). eapply perm_trans; [exact P|]. eapply perm_trans; [|apply Permutation_sym; exact P'].
  apply NoDup_Permutation_bis; auto.
  - rewrite (placed_len tol crds ty _ Pl), (placed_len tol crds ty _ Pl'). lia.
  - intros v Hv. apply In_nth with (d := 0) in Hv. destruct Hv as (k & Hk & <-). rewrite (placed_len tol crds ty _ Pl) in Hk.
    destruct (simplex_cover i j r s T Hr Hs N k Hk) as [X|X].
    + apply (adj_verts el el' i e e'); eauto.
    + apply (adj_verts el el' j e e'); eauto.
Qed.

(** C34, faces of triangles and tetrahedra: it suffices that no two elements have the same vertices. *)
Theorem C34_simplex_face_ids el i el' : ty = TRIA3 \/ ty = TET4 ->
  (forall el el' ve ve', nth_error elVe el = Some ve -> nth_error elVe el' = Some ve' -> Permutation ve ve' -> el = el') ->
  elAdj m el i = Some (Some el') ->
  exists j, getFaIdsAd ty (mEls m) 0 [el] [i] = Ok [j] /\ elFace m el' j = elFace m el i.
Proof.
  intros T D H. destruct (faIdAd_ok el i el' (oneShared_simplex T D) H) as (j & E & F). exists j. split; auto.
  unfold getFaIdsAd. cbn [combine mapM fst snd]. rewrite Nat.add_0_r, E. reflexivity.
Qed.

(** ** Vertices of tetrahedra *)

Lemma lastVe_ok v l p : length l = 4 -> NoDup l -> nth_error l p = Some v -> lastVe v l = Ok (Some p).
Proof.
  intros L ND H. destruct l as [|a [|b [|c [|d [|]]]]]; try discriminate. unfold lastVe, for_. cbn.
  assert (X : forall x y, nth_error [a; b; c; d] x = nth_error [a; b; c; d] y -> x < 4 -> x = y).
  { intros x y E Hx. eapply NoDup_nth_error; eauto. }
  destruct p as [|[|[|[|p]]]]; cbn in H; [| | | |destruct p; discriminate]; inversion H; subst v; rewrite Nat.eqb_refl.
  - destruct (Nat.eqb_spec b a); [specialize (X 1 0); cbn in X; exfalso; assert (1 = 0) by (apply X; [congruence|lia]); lia|].
    destruct (Nat.eqb_spec c a); [specialize (X 2 0); cbn in X; exfalso; assert (2 = 0) by (apply X; [congruence|lia]); lia|].
    destruct (Nat.eqb_spec d a); [specialize (X 3 0); cbn in X; exfalso; assert (3 = 0) by (apply X; [congruence|lia]); lia|]. reflexivity.
  - destruct (Nat.eqb_spec c b); [specialize (X 2 1); cbn in X; exfalso; assert (2 = 1) by (apply X; [congruence|lia]); lia|].
    destruct (Nat.eqb_spec d b); [specialize (X 3 1); cbn in X; exfalso; assert (3 = 1) by (apply X; [congruence|lia]); lia|]. reflexivity.
  - destruct (Nat.eqb_spec d c); [specialize (X 3 2); cbn in X; exfalso; assert (3 = 2) by (apply X; [congruence|lia]); lia|]. reflexivity.
  - reflexivity.
Qed.

Lemma vePos_ok j p r : nth_error (refFaces TET4) j = Some r -> In p r -> exists q, vePos j p = Ok q /\ nth_error r q = Some p.
Proof.
  intros H Hp. destruct j as [|[|[|[|j]]]]; cbn in H; try (destruct j; discriminate); injection H as <-;
    (destruct Hp as [<-|[<-|[<-|[]]]]; eexists; (split; [reflexivity|reflexivity])).
Qed.

(** C34, vertices: the id is the position, within the adjacent element's local face, of the first vertex of the element's local face. *)
Theorem C34_vertex_ids cc el i el' : ty = TET4 -> oneShared m -> elAdj m el i = Some (Some el') ->
  exists q j e e' r r' v v', getVeIdsAd tol ty cc (mEls m) 0 [el] [i] = Ok [q] /\
    nth_error (mEls m) el = Some e /\ nth_error (mEls m) el' = Some e' /\
    elFace m el' j = elFace m el i /\ nth_error (refFaces ty) i = Some r /\ nth_error (refFaces ty) j = Some r' /\
    nth_error r 0 = Some v /\ nth_error r' q = Some v' /\ nth_error (vesOf e) v = nth_error (vesOf e') v' /\ nth_error (vesOf e) v <> None.
Proof.
  intros T OS H. destruct (faIdAd_ok el i el' OS H) as (j & Ej & Fj). destruct (adj_face _ _ _ H) as [f Hf]. rewrite Hf in Fj.
  assert (exists e, nth_error (mEls m) el = Some e) as [e He] by (unfold elFace in Hf; destruct (nth_error (mEls m) el); [eauto|discriminate]).
  assert (exists e', nth_error (mEls m) el' = Some e') as [e' He'] by (unfold elFace in Fj; destruct (nth_error (mEls m) el'); [eauto|discriminate]).
  destruct (face_verts _ _ _ _ He Hf) as (r & Hr & V1). destruct (face_verts _ _ _ _ He' Fj) as (r' & Hr' & V2).
  destruct (el_row el e He) as (ve & Hve & P & ND & Pl & _). destruct (el_row el' e' He') as (ve' & Hve' & P' & ND' & Pl' & _).
  assert (L4 := placed_len tol crds ty _ Pl). assert (L4' := placed_len tol crds ty _ Pl'). rewrite T in Hr, Hr', L4, L4'. cbn [nElVes] in L4, L4'.
  assert (R0 : exists v, nth_error r 0 = Some v /\ v = (if i <=? 2 then 0 else 1) /\ v < 4).
  { destruct i as [|[|[|[|i]]]]; cbn in Hr; try (destruct i; discriminate); injection Hr as <-; eexists; (split; [reflexivity|split; [reflexivity|lia]]). }
  destruct R0 as (v & R0 & Ev & Lv). set (ve0 := nth v (vesOf e) 0).
  assert (Rq : forall k, In k r' -> k < 4).
  { intros k Hk. apply nth_error_In in Hr'. cbn in Hr'. repeat (destruct Hr' as [<-|Hr']; [cbn in Hk; intuition lia|]). destruct Hr'. }
  assert (X : exists v', In v' r' /\ nth v' (vesOf e') 0 = ve0).
  { rewrite V1 in V2. injection V2 as V2.
    assert (X : In ve0 (sortNat (map (fun k => nth k (vesOf e') 0) r'))).
    { rewrite <- V2. eapply Permutation_in; [apply sortNat_perm|]. apply (in_map (fun k => nth k (vesOf e) 0)). eapply nth_error_In; eauto. }
    eapply Permutation_in in X; [|apply Permutation_sym, sortNat_perm]. apply in_map_iff in X. destruct X as (v' & E & Hv'). eauto. }
  destruct X as (v' & Hv' & Ev'). assert (Lv' := Rq _ Hv').
  destruct (vePos_ok j v' r' Hr' Hv') as (q & Eq & Hq).
  assert (Nv' : nth_error (vesOf e') v' = Some ve0) by (rewrite <- Ev'; apply nth_error_nth'; lia).
  assert (Nv : nth_error (vesOf e) v = Some ve0) by (apply nth_error_nth'; lia).
  exists q, j, e, e', r, r', v, v'. rewrite T. split; [|rewrite Nv, Nv', Hf, Fj; repeat split; auto; discriminate].
  unfold getVeIdsAd. cbn [combine mapM fst snd]. rewrite Nat.add_0_r. unfold veIdAdTet.
  rewrite (rd_some _ _ _ He). cbn [bind]. unfold elAdj in H. rewrite He in H. unfold adsOf in H. rewrite (rd_some _ _ _ H). cbn [bind].
  rewrite <- Ev. unfold vesOf in *. rewrite (rd_some _ _ _ Nv). cbn [bind]. rewrite (rd_some _ _ _ He'). cbn [bind].
  rewrite (lastVe_ok ve0 (fst (fst e')) v' L4' ND' Nv'). cbn [bind]. rewrite T in Ej. destruct cc as [cc|]; cbn [bind valid]; rewrite Ej; cbn [bind]; rewrite Eq; reflexivity.
Qed.

End Ids.

Print Assumptions C34_face_ids.
Print Assumptions C34_simplex_face_ids.
Print Assumptions C34_vertex_ids.

(** *** Examples and refutation *)

(** Two tetrahedra. *)
Definition tetCrds : list pt := [(0, 0, 0); (1, 0, 0); (0, 1, 0); (0, 0, 1); (1, 1, 1)]%Q.
Definition tetElVe : list (list nat) := [[3; 1; 2; 0]; [1; 2; 3; 4]].
Definition tetElFaVe : list (list (list nat)) :=
  [[[3; 1; 2]; [3; 2; 0]; [0; 1; 3]; [1; 0; 2]]; [[1; 2; 3]; [4; 2; 1]; [3; 2; 4]; [3; 4; 1]]].

Example C34_example_wf : wfMesh exTol TET4 tetCrds tetElVe tetElFaVe /\ wfGroups tetElFaVe [].
Proof.
  split; [|intros t fs []].
  split; [cbn; lia|]. split; [reflexivity|]. split; [|split; [apply conformingb_ok; reflexivity|]].
  + intros row [<-|[<-|[]]]; (split; [reflexivity|]); cbn; intros ves H; intuition (subst; reflexivity).
  + assert (LP : forall a b : list (list nat), NoDup a -> NoDup b -> (forall x, In x a -> In x b) -> length b <= length a -> Permutation a b).
    { intros a b Na Nb I L. apply NoDup_Permutation_bis; auto. }
    assert (LN : forall a b : list nat, NoDup a -> NoDup b -> (forall x, In x a -> In x b) -> length b <= length a -> Permutation a b).
    { intros a b Na Nb I L. apply NoDup_Permutation_bis; auto. }
    intros [|[|el]] ve row H1 H2; inversion H1; inversion H2; subst; [| |destruct el; discriminate].
    * split; [repeat constructor; cbn; intuition discriminate|]. split; [cbn; intros; intuition lia|]. exists [0; 1; 2; 3]. split; [|split].
      -- apply LN; [repeat constructor; cbn; intuition discriminate|repeat constructor; cbn; intuition discriminate|cbn; intuition|auto].
      -- exists 0, 1, 2, 3. split; auto. vm_compute. reflexivity.
      -- vm_compute. apply LP; [repeat constructor; cbn; intuition discriminate|repeat constructor; cbn; intuition discriminate|cbn; intuition|auto].
    * split; [repeat constructor; cbn; intuition discriminate|]. split; [cbn; intros; intuition lia|]. exists [1; 2; 3; 4]. split; [|split].
      -- apply Permutation_refl.
      -- exists 1, 2, 3, 4. split; auto. vm_compute. reflexivity.
      -- vm_compute. apply LP; [repeat constructor; cbn; intuition discriminate|repeat constructor; cbn; intuition discriminate|cbn; intuition|auto].
Qed.

Example C34_example_run : exists m, mkMeshOf insertionSort exTol TET4 tetCrds tetElVe tetElFaVe [] None = Ok m /\
  oneShared m /\ elAdj m 0 3 = Some (Some 1) /\
  getFaIdsAd TET4 (mEls m) 0 [0; 1] [3; 0] = Ok [0; 3] /\ getVeIdsAd exTol TET4 (Some tetCrds) (mEls m) 0 [0; 1] [3; 0] = Ok [0; 0].
Proof.
  eexists. split; [vm_compute; reflexivity|]. split; [|vm_compute; auto].
  intros el el' i j Hi Hj. unfold elAdj in *. cbn [mEls] in *. destruct el as [|[|el]]; [| |destruct el; discriminate]; cbn in Hi, Hj;
    destruct i as [|[|[|[|i]]]]; try discriminate; try (destruct i; discriminate);
    destruct j as [|[|[|[|j]]]]; try discriminate; try (destruct j; discriminate); reflexivity.
Qed.

(** The periodic mesh of two squares: the elements share two faces.  The id found for the common interior face 3 (local face 1 of
    element 0, local face 3 of element 1) is 1, which is a periodic face. *)
Theorem C34_two_shared_refuted : exists tol ty crds elVe elFaVe groups t m el i el' j,
  (0 < tol)%Q /\ wfMesh tol ty crds elVe elFaVe /\ wfGroups elFaVe groups /\ wfPeriodic tol ty crds elFaVe groups t /\
  mkMeshOf insertionSort tol ty crds elVe elFaVe groups (Some t) = Ok m /\
  elAdj m el i = Some (Some el') /\ (forall f, elFace m el i = Some f -> adjOk m el i f (Some el')) /\
  getFaIdsAd ty (mEls m) 0 [el] [i] = Ok [j] /\ elFace m el' j <> elFace m el i.
Proof.
  exists perTol, QUAD4R, perCrds, perElVe, perElFaVe, perGroups, 6%N. eexists. exists 0, 1, 1, 1.
  destruct C51_example_wf as (W1 & W2 & W3). split; [reflexivity|]. split; [exact W1|]. split; [exact W2|]. split; [exact W3|].
  split; [exact C51_example_run|]. split; [reflexivity|]. split; [|split; [reflexivity|vm_compute; discriminate]].
  intros f Hf. vm_compute in Hf. inversion Hf; subst f. split; [lia|]. split; [reflexivity|]. exists 3. split; [reflexivity|]. split; [reflexivity|].
  intros el'' i'' H. unfold elFace in H. cbn [mEls] in H. destruct el'' as [|[|el'']]; [| |destruct el''; discriminate]; cbn in H;
    destruct i'' as [|[|[|[|i'']]]]; try discriminate; try (destruct i''; discriminate); auto.
Qed.
Print Assumptions C34_two_shared_refuted.

(** ** Gmsh *)

Lemma lowerBound_spec x l : StronglySorted lt l ->
  (forall i y, nth_error l i = Some y -> i < lowerBound x l -> y < x) /\ (forall i y, nth_error l i = Some y -> lowerBound x l <= i -> x <= y).
Proof.
  induction 1 as [|y l S [IH1 IH2] F]; cbn [lowerBound].
  - split; intros [|i] y H; discriminate.
  - rewrite Forall_forall in F. destruct (Nat.ltb_spec y x) as [L|L].
    + split; intros [|i] z Hz Hi; cbn [nth_error] in Hz; try lia.
      * inversion Hz; subst. auto.
      * eapply IH1; eauto. lia.
      * eapply IH2; eauto. lia.
    + split; intros [|i] z Hz Hi; cbn [nth_error] in Hz; try lia.
      * inversion Hz; subst. auto.
      * apply nth_error_In in Hz. apply F in Hz. lia.
Qed.

(** C45: lookup of a tag in the sorted list of tags. *)
Theorem C45_lookup x l : StronglySorted lt l ->
  (forall p, getId x l = Ok p <-> nth_error l p = Some x) /\ (~ In x l -> getId x l = Er Echeck).
Proof.
  intros S. destruct (lowerBound_spec x l S) as [H1 H2].
  assert (ND : NoDup l). { clear - S. induction S as [|y l S IH F]; constructor; auto. intros X. rewrite Forall_forall in F. apply F in X. lia. }
  assert (A : forall p, getId x l = Ok p -> nth_error l p = Some x).
  { intros p H. unfold getId in H. destruct (nth_error l (lowerBound x l)) as [y|] eqn:E; cbn [bind] in H; [|discriminate].
    destruct (Nat.eqb_spec y x) as [->|N]; cbn [check bind] in H; [|discriminate]. inversion H; subst. auto. }
  split.
  - intros p. split; [apply A|]. intros H.
    assert (Hp : lowerBound x l <= p) by (destruct (Nat.le_gt_cases (lowerBound x l) p); auto; specialize (H1 p x H); lia).
    unfold getId. destruct (nth_error l (lowerBound x l)) as [y|] eqn:E.
    + cbn [bind]. assert (Ly : x <= y) by (eapply H2; eauto).
      assert (Hlt : p < length l) by (apply nth_error_Some; congruence).
      assert (Y : y = x).
      { destruct (Nat.eq_dec p (lowerBound x l)) as [->|N]; [congruence|].
        assert (y < x); [|lia]. clear - S E H Hp N. revert p H Hp N E. generalize (lowerBound x l). revert x y.
        induction S as [|z l S IH F]; intros x y n p H Hp N E; [destruct n; discriminate|]. destruct p as [|p]; [lia|]. destruct n as [|n]; cbn in *.
        - inversion E; subst. rewrite Forall_forall in F. apply F. eapply nth_error_In; eauto.
        - eapply IH with (n := n) (p := p); eauto. lia. }
      subst y. rewrite Nat.eqb_refl. cbn [check bind]. f_equal. eapply NoDup_nth_error; [exact ND|apply nth_error_Some; congruence|congruence].
    + exfalso. apply nth_error_None in E. assert (p < length l) by (apply nth_error_Some; congruence). lia.
  - intros H. unfold getId. destruct (nth_error l (lowerBound x l)) as [y|] eqn:E; cbn [bind]; [|reflexivity].
    destruct (Nat.eqb_spec y x) as [->|N]; [|reflexivity]. exfalso. apply H. eapply nth_error_In; eauto.
Qed.
Print Assumptions C45_lookup.

Section Gmsh.
Variable srt : forall A : Type, (A -> A -> bool) -> list A -> list A.
Hypothesis SRT : isSort srt.

Lemma keyWeak (key : nat -> nat) l : strictWeak (fun a b => key a <? key b) l.
Proof.
  split.
  - intros a b _ _ H. apply Nat.ltb_lt in H. apply Nat.ltb_ge. lia.
  - intros a b c _ _ _ H1 H2. apply Nat.ltb_ge in H1, H2. apply Nat.ltb_ge. lia.
Qed.

Lemma sortKey (key : nat -> nat) n : let p := srt nat (fun a b => key a <? key b) (seq 0 n) in
  Permutation (seq 0 n) p /\ StronglySorted (fun a b => key a <= key b) p.
Proof.
  cbv zeta. destruct (SRT nat _ (seq 0 n) (keyWeak key (seq 0 n))) as [P S]. split; auto.
  revert S. generalize (srt nat (fun a b => key a <? key b) (seq 0 n)). intros l S. induction S as [|a l S IH F]; constructor; auto.
  eapply Forall_impl; [|exact F]. cbv beta. intros b H. apply Nat.ltb_ge in H. auto.
Qed.

(** C45: the permutation for the reordering of the elements contains every element once and is sorted by priority. *)
Theorem C45_reorder n prio : Permutation (reorderPerm srt n prio) (seq 0 n) /\
  StronglySorted (fun a b => nth a prio 0 <= nth b prio 0) (reorderPerm srt n prio).
Proof. destruct (sortKey (fun a => nth a prio 0) n) as [P S]. split; [apply Permutation_sym; exact P|exact S]. Qed.

(** occurrence of a tag with a coordinate *)
Definition occurs (tags : list nat) (crds : list pt) (t : nat) (c : pt) : Prop := exists i, nth_error tags i = Some t /\ nth_error crds i = Some c.

Lemma last_snoc {A} (l : list A) x d : last (l ++ [x]) d = x.
Proof. apply last_last. Qed.

Lemma sorted_snoc (l : list nat) x : StronglySorted lt l -> (forall y, In y l -> y < x) -> StronglySorted lt (l ++ [x]).
Proof.
  induction 1 as [|a l S IH F]; intros H; cbn [app]; [repeat constructor|]. constructor; [apply IH; intros; apply H; right; auto|].
  apply Forall_app. split; auto. constructor; [apply H; left; auto|constructor].
Qed.

Lemma dedup_ok tags crds : length crds = length tags -> forall perm t c, StronglySorted (fun a b => nth a tags 0 <= nth b tags 0) perm ->
  (forall i, In i perm -> i < length tags) -> StronglySorted lt t -> length c = length t ->
  (forall i y, In i perm -> In y t -> y <= nth i tags 0) -> (forall k x y, nth_error t k = Some x -> nth_error c k = Some y -> occurs tags crds x y) ->
  exists t' c', dedup perm tags crds (t, c) = Ok (t', c') /\ StronglySorted lt t' /\ length c' = length t' /\
    (forall x, In x t' <-> In x t \/ exists i, In i perm /\ nth i tags 0 = x) /\
    (forall k x y, nth_error t' k = Some x -> nth_error c' k = Some y -> occurs tags crds x y).
Proof.
  intros LC. induction perm as [|pe perm IH]; intros t c S B St Lc Lt O.
  - exists t, c. split; [reflexivity|]. split; [auto|]. split; [auto|]. split; [|auto]. intros x. split; [auto|]. intros [H|(i & [] & _)]; auto.
  - cbn [dedup]. apply StronglySorted_inv in S. destruct S as [S F]. rewrite Forall_forall in F.
    assert (Hpe : pe < length tags) by (apply B; left; auto). rewrite (rd_ok tags pe 0) by auto. cbn [bind fst snd]. set (x := nth pe tags 0).
    destruct (negb (length t =? 0) && (last t 0 =? x)) eqn:E.
    + apply andb_prop in E. destruct E as [E1 E2]. apply Nat.eqb_eq in E2. apply Bool.negb_true_iff, Nat.eqb_neq in E1.
      assert (Hx : In x t). { rewrite <- E2. destruct t as [|a t] using rev_ind; [cbn in E1; lia|]. rewrite last_snoc. apply in_app_iff. right; left; auto. }
      destruct (IH t c S) as (t' & c' & R1 & R2 & R3 & R4 & R5); auto.
      { intros i Hi. apply B. right; auto. }
      { intros i y Hi Hy. apply Lt; auto. right; auto. }
      exists t', c'. split; [auto|]. split; [auto|]. split; [auto|]. split; [|auto]. intros y. rewrite R4. split.
      * intros [H|(i & Hi & Ei)]; auto. right. exists i. split; auto. right; auto.
      * intros [H|(i & [<-|Hi] & Ei)]; auto. { left. fold x in Ei. subst y. auto. } right. eauto.
    + rewrite (rd_ok crds pe (0, 0, 0)%Q) by lia. cbn [bind]. set (y := nth pe crds (0, 0, 0)%Q).
      assert (Hlt : forall z, In z t -> z < x).
      { intros z Hz. assert (z <= x) by (apply Lt; auto; left; auto). destruct (Nat.eq_dec z x) as [->|]; [|lia]. exfalso.
        destruct t as [|a t _] using rev_ind; [destruct Hz|]. rewrite last_snoc, app_length in E. cbn [length] in E.
        rewrite (proj2 (Nat.eqb_neq (length t + 1) 0)) in E by lia. cbn [negb andb] in E. apply Nat.eqb_neq in E.
        apply in_app_iff in Hz. destruct Hz as [Hz|[Hz|[]]]; [|congruence].
        assert (a <= x) by (apply Lt; [left; auto|apply in_app_iff; right; left; auto]).
        assert (x < a); [|lia]. clear - St Hz. induction t as [|b t IH]; [destruct Hz|]. cbn in St. apply StronglySorted_inv in St. destruct St as [St F].
        destruct Hz as [->|Hz]; [|auto]. rewrite Forall_forall in F. apply F. apply in_app_iff. right; left; auto. }
      destruct (IH (t ++ [x]) (c ++ [y]) S) as (t' & c' & R1 & R2 & R3 & R4 & R5); auto.
      { intros i Hi. apply B. right; auto. }
      { apply sorted_snoc; auto. }
      { rewrite !app_length. cbn. lia. }
      { intros i z Hi Hz. apply in_app_iff in Hz. destruct Hz as [Hz|[<-|[]]]; [apply Lt; [right|]; auto|apply F; auto]. }
      { intros k a b Ha Hb. destruct (Nat.lt_ge_cases k (length t)) as [Hk|Hk].
        - rewrite nth_error_app1 in Ha, Hb by lia. eapply O; eauto.
        - rewrite nth_error_app2 in Ha, Hb by lia. rewrite Lc in Hb. destruct (k - length t) as [|q]; [|destruct q; discriminate].
          cbn in Ha, Hb. inversion Ha; inversion Hb; subst a b. exists pe. split; apply nth_error_nth'; lia. }
      exists t', c'. split; [auto|]. split; [auto|]. split; [auto|]. split; [|auto]. intros z. rewrite R4, in_app_iff. cbn [In]. split.
      * intros [[H|[<-|[]]]|(i & Hi & Ei)]; [auto| |]; right; [exists pe; auto|exists i; auto].
      * intros [H|(i & [<-|Hi] & Ei)]; [auto| |]; [left; right; left; exact Ei|right; eauto].
Qed.

(** C45: reading the vertices: tags are strictly ascending and exactly those of Gmsh, and every tag has the coordinates which Gmsh has
    for one of its occurrences. *)
Theorem C45_vertices tags crds : length crds = length tags ->
  exists t c, readVes srt tags crds = Ok (t, c) /\ StronglySorted lt t /\ length c = length t /\ (forall x, In x t <-> In x tags) /\
    (forall k x y, nth_error t k = Some x -> nth_error c k = Some y -> occurs tags crds x y).
Proof.
  intros L. unfold readVes. destruct (sortKey (fun a => nth a tags 0) (length tags)) as [P SP].
  set (perm := srt nat _ (seq 0 (length tags))) in *.
  destruct (dedup_ok tags crds L perm [] [] SP) as (t & c & E & St & Lc & I & O).
  { intros i Hi. eapply Permutation_in in Hi; [|apply Permutation_sym; exact P]. apply in_seq in Hi. lia. }
  { constructor. }
  { reflexivity. }
  { intros i y _ []. }
  { intros [|k] x y H; discriminate. }
  exists t, c. rewrite E. cbn [bind].
  match goal with |- context [for_ 1 ?h ?B ?s] => destruct (for_ok (fun _ (_ : unit) => True) 1 (Nat.max 1 h) B s) as ([] & Ef & _) end; auto; [lia| |].
  { intros i _ Hi _. destruct t as [|t0 t]; [cbn in Hi; lia|]. assert (Hi' : i < length (t0 :: t)) by lia.
    rewrite (rd_ok _ (i - 1) 0) by lia. cbn [bind]. rewrite (rd_ok _ i 0) by auto. cbn [bind].
    assert (Hlt : nth (i - 1) (t0 :: t) 0 < nth i (t0 :: t) 0).
    { replace i with (S (i - 1)) at 2 by lia. assert (Hj : S (i - 1) < length (t0 :: t)) by lia. revert Hj. generalize (i - 1). clear - St.
      intros n Hn. revert n Hn. induction St as [|a l Sl IH F]; intros n Hn; [cbn in Hn; lia|]. destruct n as [|n]; cbn [nth].
      - rewrite Forall_forall in F. apply F. apply nth_In. cbn in Hn. lia.
      - apply IH. cbn in Hn. lia. }
    apply Nat.ltb_lt in Hlt. rewrite Hlt. exists tt. auto. }
  assert (Ef' : for_ 1 (length t) (fun i (_ : unit) => a <- rd t (i - 1);; b <- rd t i;; check (a <? b)) tt = Ok tt).
  { destruct (Nat.le_gt_cases 1 (length t)) as [H1|H1]; [rewrite Nat.max_r in Ef by lia; exact Ef|]. apply for_empty. lia. }
  rewrite Ef'. cbn [bind]. split; [reflexivity|]. split; [auto|]. split; [auto|]. split; [|auto]. intros x. rewrite I. split.
  - intros [[]|(i & Hi & <-)]. apply nth_In. eapply Permutation_in in Hi; [|apply Permutation_sym; exact P]. apply in_seq in Hi. lia.
  - intros Hx. right. apply In_nth with (d := 0) in Hx. destruct Hx as (i & Hi & Ei). exists i. split; auto.
    eapply Permutation_in; [exact P|]. apply in_seq. lia.
Qed.

(** C45: looking up a vertex of Gmsh by its tag gives its coordinates, if Gmsh has the same coordinates for all occurrences of the tag. *)
Theorem C45_coordinates tags crds : length crds = length tags ->
  (forall x a b, occurs tags crds x a -> occurs tags crds x b -> a = b) ->
  exists t c, readVes srt tags crds = Ok (t, c) /\
    forall i x y, nth_error tags i = Some x -> nth_error crds i = Some y -> exists p, getId x t = Ok p /\ nth_error c p = Some y.
Proof.
  intros L U. destruct (C45_vertices tags crds L) as (t & c & E & S & Lc & I & O). exists t, c. split; auto.
  intros i x y Hx Hy. assert (Hin : In x t) by (apply I; eapply nth_error_In; eauto). apply In_nth_error in Hin. destruct Hin as [p Hp].
  exists p. split; [apply C45_lookup; auto|]. destruct (nth_error c p) as [z|] eqn:Ez.
  - f_equal. apply (U x); [apply (O p); auto|exists i; auto].
  - apply nth_error_None in Ez. assert (p < length t) by (apply nth_error_Some; congruence). lia.
Qed.

End Gmsh.
Print Assumptions C45_reorder.
Print Assumptions C45_vertices.
Print Assumptions C45_coordinates.

Example C45_example : readVes insertionSort [7; 3; 9; 3] [(0, 0, 0); (1, 0, 0); (0, 1, 0); (1, 0, 0)]%Q = Ok ([3; 7; 9], [(1, 0, 0); (0, 0, 0); (0, 1, 0)]%Q) /\
  getId 7 [3; 7; 9] = Ok 1 /\ getId 8 [3; 7; 9] = Er Echeck /\ reorderPerm insertionSort 4 [5; 1; 7; 1] = [1; 3; 0; 2].
Proof. vm_compute. auto. Qed.
