(** Proofs about normOrder and the sparse types of faces. *)
From Coq Require Import QArith Qabs Sorting.Sorted Sorting.Permutation Lqa.
From Verif Require Import Util Partition MeshConn MeshSort MeshFaces MeshNorm MeshSpec MeshNormEl MeshTypes MeshHex.
Open Scope nat_scope.

Section Order.
Variable srt : forall A : Type, (A -> A -> bool) -> list A -> list A.
Hypothesis SRT : isSort srt.
Variable tol : Q.
Hypothesis TOL : (0 < tol)%Q.

Lemma map_nth_error_nth (faVe : list (list nat)) fa ks : map (fun f => nth_error faVe f) fa = map Some ks -> map (fun f => nth f faVe []) fa = ks.
Proof.
  revert ks. induction fa as [|f fa IH]; intros [|k ks] H; cbn [map] in *; try discriminate; auto.
  injection H as H1 H2. f_equal; auto. apply nth_error_nth. auto.
Qed.

Lemma map_nth_nth_error (faVe : list (list nat)) fa : (forall f, In f fa -> f < length faVe) ->
  map (fun f => nth_error faVe f) fa = map Some (map (fun f => nth f faVe []) fa).
Proof.
  intros H. rewrite map_map. apply map_ext_in. intros f Hf. apply nth_error_nth'. auto.
Qed.

Lemma combine_fst {A B} (l : list A) (r : list B) : length l = length r -> map fst (combine l r) = l.
Proof. revert r. induction l as [|a l IH]; intros [|b r] H; cbn in *; try discriminate; auto. f_equal. auto. Qed.

Lemma perm_combine_fst {A B} (l l' : list A) (r r' : list B) : length l = length r -> length l' = length r' ->
  Permutation (combine l r) (combine l' r') -> Permutation l l'.
Proof. intros H H' P. apply (Permutation_map fst) in P. rewrite !combine_fst in P; auto. Qed.

Lemma placed_len crds ty ps : placed tol crds ty ps -> length ps = nElVes ty.
Proof.
  destruct ty; cbn [placed].
  - intros (a & b & c & d & -> & _). reflexivity.
  - intros (a & b & c & -> & _). reflexivity.
  - intros [H _]. exact H.
  - intros (a & b & c & d & -> & _). reflexivity.
Qed.

Lemma quad_norm crds ve fa ad lv q : length ve = 4 -> length fa = 4 -> length ad = 4 ->
  quadOrder (map (xyz crds) ve) = Ok lv -> Permutation lv [0; 1; 2; 3] -> quadFaces lv = Ok q -> Permutation q [0; 1; 2; 3] ->
  normQuad4r (map (xyz crds) ve) (ve, fa, ad) = Ok (pick 0 ve lv, pick 0 fa q, pick None ad q).
Proof.
  intros L1 L2 L3 E1 P1 E2 P2. unfold normQuad4r. rewrite E1. cbn [bind]. rewrite E2. cbn [bind].
  assert (B : forall l i, Permutation l [0; 1; 2; 3] -> In i l -> i < 4).
  { intros l i P Hi. eapply Permutation_in in Hi; [|exact P]. cbn in Hi. lia. }
  rewrite (mapM_map _ (fun i => nth i ve 0)) by (intros i Hi; apply rd_ok; rewrite L1; eauto). cbn [bind].
  rewrite (mapM_map _ (fun i => nth i fa 0)) by (intros i Hi; apply rd_ok; rewrite L2; eauto). cbn [bind].
  rewrite (mapM_map _ (fun i => nth i ad None)) by (intros i Hi; apply rd_ok; rewrite L3; eauto). reflexivity.
Qed.

(** The normalization after the sorting of vertices and faces. *)
Lemma normVesFas_ok ty crds faVe ve fa ad ps :
  NoDup ve -> StronglySorted le ve -> Permutation ve ps -> placed tol crds ty ps ->
  length fa = nElFas ty -> length ad = nElFas ty ->
  StronglySorted (fun a b => lexLt b a = false) (map (fun f => nth f faVe []) fa) ->
  Permutation (map (fun f => nth f faVe []) fa) (facesOf ty ps) ->
  exists ve' fa' ad', normVesFas srt tol ty (map (xyz crds) ve) (ve, fa, ad) = Ok (ve', fa', ad') /\
    Permutation ve ve' /\ placed tol crds ty ve' /\ length fa' = nElFas ty /\ length ad' = nElFas ty /\
    Permutation (combine fa ad) (combine fa' ad') /\ map (fun f => nth f faVe []) fa' = facesOf ty ve'.
Proof.
  intros ND Sv Pv Pl L1 L2 Sk Pk. assert (Lp := placed_len crds ty ps Pl). assert (Lv : length ve = nElVes ty) by (rewrite (Permutation_length Pv); auto).
  destruct (perm_index ve ps ND Pv) as (lv & P & Eps). rewrite Lv in P. fold (pick 0 ve lv) in Eps.
  set (g := fun i => nth i ve 0). assert (Eg : forall l, pick 0 ve l = map g l) by reflexivity.
  assert (M : mono g (nElVes ty)).
  { assert (M := sorted_mono ve ND). rewrite (sortNat_id ve Sv), Lv in M. exact M. }
  assert (K : map (fun f => nth f faVe []) fa = map (map g) (idxFaces ty lv)).
  { apply keys_idx; auto. rewrite <- Eg, <- Eps. exact Pk. }
  assert (PC : forall q, Permutation q (seq 0 (nElFas ty)) -> Permutation (combine fa ad) (combine (pick 0 fa q) (pick None ad q)) /\
             length (pick 0 fa q) = nElFas ty /\ length (pick None ad q) = nElFas ty /\ forall i, In i q -> i < length fa).
  { intros q Pq. assert (Bq : forall i, In i q -> i < length fa).
    { intros i Hi. eapply Permutation_in in Hi; [|exact Pq]. apply in_seq in Hi. lia. }
    assert (Lq : length q = nElFas ty) by (rewrite (Permutation_length Pq), seq_length; auto).
    split; [|unfold pick; rewrite !map_length; auto]. rewrite pick_combine by (auto; lia). apply pick_perm.
    rewrite combine_length. replace (Nat.min (length fa) (length ad)) with (nElFas ty) by lia. exact Pq. }
  assert (SP : forall q n, sortNat q = seq 0 n -> Permutation q (seq 0 n)) by (intros q n <-; apply sortNat_perm).
  destruct ty; cbn [nElVes nElFas nFaVes normVesFas] in *.
  - (* rectangles *)
    destruct Pl as (a & b & c & d & Ea & X1 & X2 & Y1 & Y2 & Y3 & Y4).
    assert (Ll : length lv = 4) by (rewrite (Permutation_length P); reflexivity).
    assert (EQ : quadOrder (map (xyz crds) ve) = Ok lv).
    { assert (Np : forall k, k < 4 -> nth (nth k lv 0) (map (xyz crds) ve) d0 = xyz crds (nth k ps 0)).
      { intros k Hk. rewrite (nth_map' _ _ _ 0).
        - f_equal. rewrite Eps, nth_pick by lia. reflexivity.
        - rewrite Lv. assert (In (nth k lv 0) (seq 0 4)) by (eapply Permutation_in; [exact P|apply nth_In; lia]). apply in_seq in H. lia. }
      apply quadOrder_ok; auto; [rewrite map_length; auto|..]; rewrite !Np by lia; rewrite Ea; cbn [nth]; auto. }
    destruct (quad_faces lv P) as (q & Eq & Pq & Oq). destruct (PC q Pq) as (C1 & C2 & C3 & C4).
    rewrite (quad_norm crds ve fa ad lv q Lv L1 L2 EQ P Eq Pq). eexists _, _, _. split; [reflexivity|].
    split; [apply pick_perm; rewrite Lv; exact P|]. split; [rewrite <- Eps; exists a, b, c, d; auto 10|].
    split; [exact C2|]. split; [exact C3|]. split; [exact C1|]. apply (pick_faces QUAD4R faVe g fa lv lv q); auto.
  - (* triangles *)
    destruct Pl as (a & b & c & Ea & A).
    destruct ve as [|v0 [|v1 [|v2 [|]]]]; try discriminate. destruct fa as [|f0 [|f1 [|f2 [|]]]]; try discriminate.
    destruct ad as [|e0 [|e1 [|e2 [|]]]]; try discriminate. cbn [map]. rewrite normTria3_ok.
    fold (X crds v0) (X crds v1) (X crds v2) (Y crds v0) (Y crds v1) (Y crds v2). fold (area2 crds v0 v1 v2).
    assert (D : (area2 crds a b c == area2 crds v0 v1 v2 \/ area2 crds a b c == - area2 crds v0 v1 v2)%Q).
    { pose proof (area2_perm crds [v0; v1; v2] lv P) as H. cbv beta zeta in H.
      assert (Np : forall k, k < 3 -> nth (nth k lv 0) [v0; v1; v2] 0 = nth k ps 0).
      { intros k Hk. rewrite Eps, nth_pick; auto. rewrite (Permutation_length P). cbn; lia. }
      rewrite !Np in H by lia. rewrite Ea in H. cbn [nth] in H. exact H. }
    destruct (tria_okq lv P) as [O1 O2].
    destruct (Qltb (area2 crds v0 v1 v2) 0) eqn:Ed.
    + apply Qltb_lt in Ed. destruct (PC [1; 2; 0] (SP [1; 2; 0] 3 eq_refl)) as (C1 & C2 & C3 & C4).
      eexists _, _, _. split; [reflexivity|]. split; [apply (pick_perm 0 [v0; v1; v2] [0; 2; 1]); apply (SP [0; 2; 1] 3 eq_refl)|].
      split; [exists v0, v2, v1; split; auto; assert (E : (area2 crds v0 v2 v1 == - area2 crds v0 v1 v2)%Q) by (unfold area2; ring); rewrite E; lra|].
      split; [exact C2|]. split; [exact C3|]. split; [exact C1|].
      apply (pick_faces TRIA3 faVe g [f0; f1; f2] lv [0; 2; 1] [1; 2; 0]); auto; try exact (SP [0; 2; 1] 3 eq_refl).
    + apply Qltb_ge in Ed. destruct (PC [0; 2; 1] (SP [0; 2; 1] 3 eq_refl)) as (C1 & C2 & C3 & C4).
      eexists _, _, _. split; [reflexivity|]. split; [apply Permutation_refl|].
      split; [exists v0, v1, v2; split; auto; destruct D as [D|D]; lra|].
      split; [exact C2|]. split; [exact C3|]. split; [exact C1|].
      apply (pick_faces TRIA3 faVe g [f0; f1; f2] lv [0; 1; 2] [0; 2; 1]); auto.
  - (* hexahedra *)
    destruct (normHex8r_ok srt SRT tol TOL crds faVe ve fa ad ps lv Pl P Lv Eps L1 L2 Sk Pk) as (fa' & ad' & E & L1' & L2' & Pc & Kf).
    exists ps, fa', ad'. split; [exact E|]. split; [exact Pv|]. split; [exact Pl|]. auto.
  - (* tetrahedra *)
    destruct Pl as (a & b & c & d & Ea & A).
    destruct ve as [|v0 [|v1 [|v2 [|v3 [|]]]]]; try discriminate. destruct fa as [|f0 [|f1 [|f2 [|f3 [|]]]]]; try discriminate.
    destruct ad as [|e0 [|e1 [|e2 [|e3 [|]]]]]; try discriminate. cbn [map].
    assert (D : (volume6 crds a b c d == volume6 crds v0 v1 v2 v3 \/ volume6 crds a b c d == - volume6 crds v0 v1 v2 v3)%Q).
    { pose proof (volume6_perm crds [v0; v1; v2; v3] lv P) as H. cbv beta zeta in H.
      assert (Np : forall k, k < 4 -> nth (nth k lv 0) [v0; v1; v2; v3] 0 = nth k ps 0).
      { intros k Hk. rewrite Eps, nth_pick; auto. rewrite (Permutation_length P). cbn; lia. }
      rewrite !Np in H by lia. rewrite Ea in H. cbn [nth] in H. exact H. }
    assert (E3 := det3_volume crds v0 v1 v2 v3).
    rewrite normTet4_ok.
    2:{ rewrite E3. destruct D as [D|D].
        - pose proof (Qle_Qabs (volume6 crds v0 v1 v2 v3)). lra.
        - rewrite <- Qabs_opp. pose proof (Qle_Qabs (- volume6 crds v0 v1 v2 v3)). lra. }
    destruct (tet_okq lv P) as [O1 O2].
    destruct (Qltb _ 0) eqn:Ed.
    + apply Qltb_lt in Ed. rewrite E3 in Ed. destruct (PC [1; 0; 2; 3] (SP [1; 0; 2; 3] 4 eq_refl)) as (C1 & C2 & C3 & C4).
      eexists _, _, _. split; [reflexivity|]. split; [apply (pick_perm 0 [v0; v1; v2; v3] [0; 1; 3; 2]); apply (SP [0; 1; 3; 2] 4 eq_refl)|].
      split; [exists v0, v1, v3, v2; split; auto; assert (E : (volume6 crds v0 v1 v3 v2 == - volume6 crds v0 v1 v2 v3)%Q) by (unfold volume6; ring); rewrite E; destruct D as [D|D]; lra|].
      split; [exact C2|]. split; [exact C3|]. split; [exact C1|].
      apply (pick_faces TET4 faVe g [f0; f1; f2; f3] lv [0; 1; 3; 2] [1; 0; 2; 3]); auto; try exact (SP [0; 1; 3; 2] 4 eq_refl).
    + apply Qltb_ge in Ed. rewrite E3 in Ed. destruct (PC [0; 1; 2; 3] (SP [0; 1; 2; 3] 4 eq_refl)) as (C1 & C2 & C3 & C4).
      eexists _, _, _. split; [reflexivity|]. split; [apply Permutation_refl|].
      split; [exists v0, v1, v2, v3; split; auto; destruct D as [D|D]; lra|].
      split; [exact C2|]. split; [exact C3|]. split; [exact C1|].
      apply (pick_faces TET4 faVe g [f0; f1; f2; f3] lv [0; 1; 2; 3] [0; 1; 2; 3]); auto.
Qed.

(** One element. *)
Lemma normEl_ok ty crds faVe ve fa ad ps :
  NoDup ve -> (forall v, In v ve -> v < length crds) -> Permutation ve ps -> placed tol crds ty ps ->
  length fa = nElFas ty -> length ad = nElFas ty ->
  Permutation (map (fun f => nth_error faVe f) fa) (map Some (facesOf ty ps)) ->
  exists ve' fa' ad', normEl srt tol ty crds faVe (ve, fa, ad) = Ok (ve', fa', ad') /\
    Permutation ve ve' /\ placed tol crds ty ve' /\ length fa' = nElFas ty /\ length ad' = nElFas ty /\
    Permutation (combine fa ad) (combine fa' ad') /\ map (fun f => nth_error faVe f) fa' = map Some (facesOf ty ve').
Proof.
  intros ND B Pv Pl L1 L2 Pf. assert (Lp := placed_len crds ty ps Pl).
  assert (NDp : NoDup ps) by (eapply Permutation_NoDup; eauto).
  assert (Val : forall f, In f fa -> exists k, nth_error faVe f = Some k /\ In k (facesOf ty ps)).
  { intros f Hf. apply (in_map (fun f => nth_error faVe f)) in Hf. eapply Permutation_in in Hf; [|exact Pf].
    apply in_map_iff in Hf. destruct Hf as (k & Ek & Hk). exists k. auto. }
  assert (Pk : Permutation (map (fun f => nth f faVe []) fa) (facesOf ty ps)).
  { rewrite map_nth_nth_error in Pf by (intros f Hf; destruct (Val f Hf) as (k & E & _); apply nth_error_Some; congruence).
    apply (Permutation_map (fun o => match o with Some k => k | None => [] end)) in Pf. rewrite !map_map in Pf. cbn in Pf. rewrite map_id in Pf. exact Pf. }
  assert (NDk : NoDup (map (fun f => nth f faVe []) fa)).
  { eapply Permutation_NoDup; [apply Permutation_sym; exact Pk|]. apply facesOf_NoDup_tri; auto. }
  destruct (sortFaces_ok faVe (nFaVes ty) (nElFas ty) fa ad L1 L2) as (fa1 & ad1 & E1 & L1' & L2' & G1 & P1 & S1).
  { split.
    - intros i Hi. destruct (Val (nth i fa 0)) as (k & Ek & Hk); [apply nth_In; auto|]. exists k. split; auto. eapply facesOf_len; eauto.
    - intros i j Hi Hj N X. apply N. apply (proj1 (NoDup_nth (map (fun f => nth f faVe []) fa) (nth 0 faVe [])) NDk i j); try (rewrite map_length; auto).
      rewrite !(map_nth (fun f => nth f faVe [])). exact X. }
  unfold normEl. rewrite E1. cbn [bind].
  assert (Ps : Permutation ve (sortNat ve)) by apply sortNat_perm.
  rewrite (mapM_map _ (xyz crds)).
  2:{ intros v Hv. apply rd_ok. apply B. eapply Permutation_in; [apply Permutation_sym; exact Ps|auto]. }
  cbn [bind]. assert (Pfa : Permutation fa fa1) by (eapply perm_combine_fst; [| |exact P1]; lia).
  destruct (normVesFas_ok ty crds faVe (sortNat ve) fa1 ad1 ps) as (ve' & fa' & ad' & E & Q1 & Q2 & Q3 & Q4 & Q5 & Q6); auto.
  - eapply Permutation_NoDup; eauto.
  - apply sortNat_sorted.
  - eapply perm_trans; [apply Permutation_sym; exact Ps|exact Pv].
  - apply keys_sorted. rewrite L1'. exact S1.
  - eapply perm_trans; [|exact Pk]. apply Permutation_map, Permutation_sym. exact Pfa.
  - rewrite E. exists ve', fa', ad'. split; [reflexivity|]. split; [eapply perm_trans; eauto|]. split; [exact Q2|]. split; [exact Q3|]. split; [exact Q4|].
    split; [eapply perm_trans; eauto|]. rewrite map_nth_nth_error; [rewrite Q6; reflexivity|]. intros f Hf.
    assert (Hf0 : In f fa).
    { eapply Permutation_in; [apply Permutation_sym; exact Pfa|]. eapply Permutation_in; [apply Permutation_sym; eapply perm_combine_fst; [| |exact Q5]; lia|exact Hf]. }
    destruct (Val f Hf0) as (k & Ek & _). apply nth_error_Some. congruence.
Qed.

(** ** Sparse types *)

Lemma match_iff n (v w : list nat) : length v = n -> length w = n ->
  (length (filter (fun p => fst p =? snd p) (combine v w)) =? n) = true <-> v = w.
Proof.
  intros Lv Lw. exact (sameFace_iff n (mkFace 0 0 v) (mkFace 0 0 w) Lv Lw).
Qed.

(** Types after adding [t] to the faces [sp]. *)
Definition addTo (sp : list (list nat)) (t : N) (v : list nat) (ty : N) : N :=
  if in_dec (list_eq_dec Nat.eq_dec) v sp then N.lor ty t else ty.

Lemma addSparse_ok n t : forall de sp tys,
  (forall v, In v de -> length v = n) -> (forall v, In v sp -> length v = n) -> length tys = length de ->
  StronglySorted (fun a b => lexLt a b = true) de -> StronglySorted (fun a b => lexLt b a = false) sp ->
  match addSparseTypeEn n de sp t tys with
  | Ok tys' => tys' = map (fun p => addTo sp t (fst p) (snd p)) (combine de tys) /\ (forall v, In v sp -> In v de) /\ NoDup sp
  | Er _ => ~ (NoDup sp /\ forall v, In v sp -> In v de)
  end.
Proof.
  induction de as [|v de IH]; intros sp tys Ld Ls Lt Sd Ss.
  - cbn [addSparseTypeEn]. destruct tys; [|discriminate]. destruct sp as [|w sp].
    + cbn. split; auto. split; [intros v []|constructor].
    + intros [_ H]. apply (H w). left; auto.
  - destruct tys as [|ty tys]; [discriminate|]. cbn [addSparseTypeEn]. destruct sp as [|w sp].
    + split; [|split; [intros x []|constructor]].
      assert (X : forall (l : list (list nat * N)), map (fun p => addTo [] t (fst p) (snd p)) l = map snd l) by (intros l; apply map_ext; reflexivity).
      rewrite X. clear - Lt. change (ty :: tys = map snd (combine (v :: de) (ty :: tys))). revert Lt. generalize (v :: de) (ty :: tys).
      induction l as [|a l IH]; intros [|b l0] L; cbn in *; try discriminate; auto. f_equal. auto.
    + apply StronglySorted_inv in Sd. destruct Sd as [Sd Fd]. rewrite Forall_forall in Fd.
      pose proof Ss as Ss'. apply StronglySorted_inv in Ss'. destruct Ss' as [Ss' Fs]. rewrite Forall_forall in Fs.
      assert (Lv : length v = n) by (apply Ld; left; auto). assert (Lw : length w = n) by (apply Ls; left; auto).
      assert (Ld' : forall x, In x de -> length x = n) by (intros; apply Ld; right; auto).
      assert (Ls' : forall x, In x sp -> length x = n) by (intros; apply Ls; right; auto).
      assert (Ndv : ~ In v de) by (intros X; apply Fd in X; rewrite lexLt_irr in X; discriminate).
      destruct (length (filter (fun p => fst p =? snd p) (combine v w)) =? n) eqn:Em.
      * apply (match_iff n v w Lv Lw) in Em. subst w.
        specialize (IH sp tys Ld' Ls' ltac:(cbn in Lt; lia) Sd Ss'). destruct (addSparseTypeEn n de sp t tys) as [tys'|e]; cbn [bind].
        -- destruct IH as (-> & IH2 & IH3). split; [|split].
           ++ cbn [combine map fst snd]. f_equal.
              ** unfold addTo. destruct (in_dec _ v (v :: sp)) as [Hi|Hi]; auto. exfalso. apply Hi. left; auto.
              ** apply map_ext_in. intros [x y] Hx. apply in_combine_l in Hx. cbn [fst snd]. unfold addTo.
                 destruct (in_dec _ x sp) as [Hi|Hi]; destruct (in_dec _ x (v :: sp)) as [Hj|Hj]; auto.
                 --- exfalso. apply Hj. right; auto.
                 --- exfalso. destruct Hj as [<-|Hj]; auto.
           ++ intros x [<-|Hx]; [left; auto|right; auto].
           ++ constructor; auto. 
        -- intros [H1 H2]. apply IH. apply NoDup_cons_iff in H1. destruct H1 as [H0 H1]. split; auto.
           intros x Hx. destruct (H2 x) as [<-|H3]; auto; [right; auto|contradiction].
      * assert (Nvw : v <> w) by (intros X; apply (match_iff n v w Lv Lw) in X; congruence).
        specialize (IH (w :: sp) tys Ld' Ls ltac:(cbn in Lt; lia) Sd Ss). destruct (addSparseTypeEn n de (w :: sp) t tys) as [tys'|e]; cbn [bind].
        -- destruct IH as (-> & IH2 & IH3).
           assert (Nv : ~ In v (w :: sp)) by (intros X; apply IH2 in X; auto).
           split; [|split; auto].
           ++ cbn [combine map fst snd]. f_equal. unfold addTo at 1. destruct (in_dec _ v (w :: sp)); auto. contradiction.
           ++ intros x Hx. right. apply IH2. exact Hx.
        -- intros [H1 H2]. apply IH. split; auto. intros x Hx. destruct (H2 x Hx) as [<-|H3]; auto.
           exfalso. (* v is in the sparse list, but w comes before and is in the dense list after v *)
           destruct (H2 w) as [<-|Hw]; [left; auto|congruence|]. destruct Hx as [->|Hx]; [congruence|].
           apply Fd in Hw. apply Fs in Hx. congruence.
Qed.
End Order.
