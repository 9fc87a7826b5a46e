(** Proofs about the normalization of triangles, rectangles, tetrahedra and hexahedra. *)
From Coq Require Import QArith Qabs Sorting.Sorted Sorting.Permutation Lqa.
From Verif Require Import Util Partition MeshConn MeshSort MeshNorm MeshSpec MeshNormEl.
Open Scope nat_scope.

Definition pick {A} (d : A) (l : list A) (q : list nat) : list A := map (fun i => nth i l d) q.

Lemma pick_seq {A} (d : A) l : pick d l (seq 0 (length l)) = l.
Proof.
  apply nth_error_ext'. intros i. unfold pick. rewrite nth_error_map. destruct (lt_dec i (length l)) as [H|H].
  - rewrite nth_error_seq by auto. cbn [option_map plus]. symmetry. apply nth_error_nth'. auto.
  - rewrite (proj2 (nth_error_None l i)) by lia. rewrite (proj2 (nth_error_None (seq 0 (length l)) i)) by (rewrite seq_length; lia). reflexivity.
Qed.

Lemma pick_perm {A} (d : A) l q : Permutation q (seq 0 (length l)) -> Permutation l (pick d l q).
Proof. intros P. rewrite <- (pick_seq d l) at 1. apply Permutation_map, Permutation_sym. exact P. Qed.

Lemma pick_combine {A B} (d : A) (d' : B) l r q : length l = length r -> (forall i, In i q -> i < length l) ->
  combine (pick d l q) (pick d' r q) = pick (d, d') (combine l r) q.
Proof.
  intros L H. induction q as [|i q IH]; cbn [pick map combine]; auto. f_equal.
  - rewrite combine_nth; auto.
  - apply IH. intros; apply H; cbn; auto.
Qed.

Lemma pick_faces ty faVe g fa lv lv' q :
  mono g (nElVes ty) -> Permutation lv' (seq 0 (nElVes ty)) -> (forall i, In i q -> i < length fa) ->
  map (fun f => nth f faVe []) fa = map (map g) (idxFaces ty lv) -> okq ty lv lv' q ->
  map (fun f => nth f faVe []) (pick 0 fa q) = facesOf ty (map g lv').
Proof.
  intros M P B K O. rewrite (facesOf_map ty g lv' M P), <- O. unfold pick. rewrite !map_map. apply map_ext_in. intros i Hi.
  specialize (B i Hi). rewrite <- (map_nth (map g)). rewrite <- K. cbn [map].
  rewrite (nth_indep (map (fun f => nth f faVe []) fa) [] (nth 0 faVe [])) by (rewrite map_length; auto).
  rewrite (map_nth (fun f => nth f faVe [])). reflexivity.
Qed.

(** ** Triangles *)

Lemma normTria3_ok (c0 c1 c2 : pt) a b c f0 f1 f2 (e0 e1 e2 : option nat) :
  let det := ((crd c1 0 - crd c0 0) * (crd c2 1 - crd c0 1) - (crd c2 0 - crd c0 0) * (crd c1 1 - crd c0 1))%Q in
  normTria3 [c0; c1; c2] ([a; b; c], [f0; f1; f2], [e0; e1; e2]) =
  Ok (if Qltb det 0 then ([a; c; b], [f1; f2; f0], [e1; e2; e0]) else ([a; b; c], [f0; f2; f1], [e0; e2; e1])).
Proof. intros det. unfold normTria3. cbn -[Qltb crd]. fold det. destruct (Qltb det 0); reflexivity. Qed.

Lemma tria_okq lv : Permutation lv [0; 1; 2] -> okq TRIA3 lv [0; 2; 1] [1; 2; 0] /\ okq TRIA3 lv [0; 1; 2] [0; 2; 1].
Proof.
  intros P. apply perms3 in P. cbn [In] in P.
  repeat (destruct P as [<-|P]; [split; vm_compute; reflexivity|]). destruct P.
Qed.

Lemma area2_perm crds ve lv : Permutation lv [0; 1; 2] ->
  let a i := nth (nth i lv 0) ve 0 in
  (area2 crds (a 0%nat) (a 1%nat) (a 2%nat) == area2 crds (nth 0 ve 0%nat) (nth 1 ve 0%nat) (nth 2 ve 0%nat) \/
   area2 crds (a 0%nat) (a 1%nat) (a 2%nat) == - area2 crds (nth 0 ve 0%nat) (nth 1 ve 0%nat) (nth 2 ve 0%nat))%Q.
Proof.
  intros P a. apply perms3 in P. cbn [In] in P. unfold a, area2.
  repeat (destruct P as [<-|P]; [cbn [nth]; first [left; ring|right; ring]|]). destruct P.
Qed.

(** ** Tetrahedra *)

Lemma normTet4_ok tol (c0 c1 c2 c3 : pt) a b c d f0 f1 f2 f3 (e0 e1 e2 e3 : option nat) :
  (tol < Qabs (det3 c0 c1 c2 c3))%Q ->
  normTet4 tol [c0; c1; c2; c3] ([a; b; c; d], [f0; f1; f2; f3], [e0; e1; e2; e3]) =
  Ok (if Qltb (det3 c0 c1 c2 c3) 0 then ([a; b; d; c], [f1; f0; f2; f3], [e1; e0; e2; e3])
      else ([a; b; c; d], [f0; f1; f2; f3], [e0; e1; e2; e3])).
Proof.
  intros H. unfold normTet4. cbn -[Qltb det3]. apply Qltb_lt in H. rewrite H. cbn -[Qltb det3].
  destruct (Qltb (det3 c0 c1 c2 c3) 0); reflexivity.
Qed.

Lemma tet_okq lv : Permutation lv [0; 1; 2; 3] -> okq TET4 lv [0; 1; 3; 2] [1; 0; 2; 3] /\ okq TET4 lv [0; 1; 2; 3] [0; 1; 2; 3].
Proof.
  intros P. apply perms4 in P. cbn [In allPerms4] in P.
  repeat (destruct P as [<-|P]; [split; vm_compute; reflexivity|]). destruct P.
Qed.

Lemma det3_volume crds a b c d : (det3 (xyz crds a) (xyz crds b) (xyz crds c) (xyz crds d) == volume6 crds a b c d)%Q.
Proof. unfold det3, volume6, X, Y, Z. cbn [nth]. ring. Qed.

Lemma volume6_perm crds ve lv : Permutation lv [0; 1; 2; 3] ->
  let a i := nth (nth i lv 0) ve 0 in
  (volume6 crds (a 0%nat) (a 1%nat) (a 2%nat) (a 3%nat) == volume6 crds (nth 0 ve 0%nat) (nth 1 ve 0%nat) (nth 2 ve 0%nat) (nth 3 ve 0%nat) \/
   volume6 crds (a 0%nat) (a 1%nat) (a 2%nat) (a 3%nat) == - volume6 crds (nth 0 ve 0%nat) (nth 1 ve 0%nat) (nth 2 ve 0%nat) (nth 3 ve 0%nat))%Q.
Proof.
  intros P a. apply perms4 in P. cbn [In allPerms4] in P. unfold a, volume6.
  repeat (destruct P as [<-|P]; [cbn [nth]; first [left; ring|right; ring]|]). destruct P.
Qed.

(** ** Rectangles *)

Definition tab (c : list pt) (di : nat) : list (list bool) := map (fun a => map (fun b => Qltb (crd a di) (crd b di)) c) c.
Definition atb (t : list (list bool)) (i j : nat) : bool := nth j (nth i t []) false.

(** the order in terms of the comparisons of coordinates *)
Definition quadOrderB (ty tx : list (list bool)) : res (list nat) :=
  ve <- for_ 0 4 (fun v0 s => for_ v0 4 (fun v1 ve =>
     a <- rd ve v0 ;; b <- rd ve v1 ;;
     if atb ty b a then swap v1 v0 ve else Ok ve) s) [0; 1; 2; 3] ;;
  v0 <- rd ve 0 ;; v1 <- rd ve 1 ;; v2 <- rd ve 2 ;; v3 <- rd ve 3 ;;
  ve <- (if atb tx v1 v0 then swap 0 1 ve else Ok ve) ;;
  if atb tx v2 v3 then swap 3 2 ve else Ok ve.

Definition d0 : pt := (0, 0, 0)%Q.
Definition rel (c : list pt) (s : list pt * list nat) (ve : list nat) : Prop :=
  s = (pick d0 c ve, ve) /\ length ve = 4 /\ Forall (fun i => i < 4) ve.

Lemma for_rel {A B} (R : A -> B -> Prop) lo hi (f : nat -> A -> res A) (g : nat -> B -> res B) a b :
  R a b -> (forall k a b, lo <= k < hi -> R a b -> exists a' b', f k a = Ok a' /\ g k b = Ok b' /\ R a' b') ->
  exists a' b', for_ lo hi f a = Ok a' /\ for_ lo hi g b = Ok b' /\ R a' b'.
Proof.
  intros H Hs. destruct (le_lt_dec lo hi) as [L|L].
  - assert (X : forall n k a b, n = hi - k -> lo <= k <= hi -> R a b -> exists a' b', for_ k hi f a = Ok a' /\ for_ k hi g b = Ok b' /\ R a' b').
    { induction n as [|n IH]; intros k a1 b1 En Hk Hr.
      - rewrite !for_empty by lia. eauto.
      - rewrite !for_step by lia. destruct (Hs k a1 b1) as (a2 & b2 & E1 & E2 & R2); auto; [lia|]. rewrite E1, E2. cbn [bind].
        apply IH; auto; lia. }
    apply (X (hi - lo) lo); auto; lia.
  - rewrite !for_empty by lia. eauto.
Qed.

Lemma swap_pick {A} (d : A) c ve i j ve' : length ve = 4 -> i < 4 -> j < 4 -> swap i j ve = Ok ve' -> swap i j (pick d c ve) = Ok (pick d c ve').
Proof.
  intros L Hi Hj H. destruct (swap_ok ve i j) as (v1 & E1 & L1 & T1); try lia. rewrite H in E1. inversion E1; subst v1.
  destruct (swap_ok (pick d c ve) i j) as (v2 & E2 & L2 & T2); try (unfold pick; rewrite map_length; lia).
  rewrite E2. f_equal. apply nth_error_ext'. intros k. rewrite T2. unfold pick. rewrite !nth_error_map, T1. reflexivity.
Qed.

Lemma tab_at c di i j : length c = 4 -> i < 4 -> j < 4 -> atb (tab c di) i j = Qltb (crd (nth i c d0) di) (crd (nth j c d0) di).
Proof.
  intros L Hi Hj. unfold atb, tab. rewrite (nth_indep _ [] (map (fun b => Qltb (crd d0 di) (crd b di)) c)) by (rewrite map_length; lia).
  rewrite (map_nth (fun a => map (fun b => Qltb (crd a di) (crd b di)) c)).
  rewrite (nth_indep _ false (Qltb (crd (nth i c d0) di) (crd d0 di))) by (rewrite map_length; lia).
  rewrite (map_nth (fun b => Qltb (crd (nth i c d0) di) (crd b di))). reflexivity.
Qed.

Lemma quadOrder_tab c : length c = 4 -> quadOrder c = quadOrderB (tab c 1) (tab c 0).
Proof.
  intros L. unfold quadOrder, quadOrderB.
  match goal with |- bind (for_ 0 4 ?f ?a) _ = bind (for_ 0 4 ?g ?b) _ =>
    destruct (for_rel (rel c) 0 4 f g a b) as (s & ve & E1 & E2 & R) end.
  - unfold rel. split; [|split; [reflexivity|repeat constructor]]. f_equal. rewrite <- (pick_seq d0 c) at 1. rewrite L. reflexivity.
  - intros v0 s ve H0 R. apply for_rel; auto. clear s ve R. intros v1 s ve H1 (-> & Lv & F).
    rewrite Forall_forall in F.
    assert (N0 : v0 < length ve) by lia. assert (N1 : v1 < length ve) by lia.
    rewrite (rd_ok (pick d0 c ve) v0 d0), (rd_ok (pick d0 c ve) v1 d0) by (unfold pick; rewrite map_length; lia).
    rewrite (rd_ok ve v0 0), (rd_ok ve v1 0) by lia. cbn [bind].
    assert (P : forall k, k < 4 -> nth k (pick d0 c ve) d0 = nth (nth k ve 0) c d0).
    { intros k Hk. unfold pick. rewrite (nth_indep _ d0 (nth 0 c d0)) by (rewrite map_length; lia). rewrite (map_nth (fun i => nth i c d0)). reflexivity. }
    rewrite !P by lia. rewrite tab_at by (auto; apply F; apply nth_In; lia).
    destruct (Qltb _ _).
    + destruct (swap_ok ve v1 v0) as (ve' & E & Lv' & T); try lia. rewrite E, (swap_pick d0 c ve v1 v0 ve') by (auto; lia). cbn [bind].
      eexists. eexists. split; [reflexivity|]. split; [reflexivity|]. split; [auto|]. split; [lia|].
      eapply Permutation_Forall; [apply (perm_tr ve ve' v1 v0); auto|]. apply Forall_forall; auto.
    + eexists. eexists. split; [reflexivity|]. split; [reflexivity|]. split; [auto|]. split; auto. apply Forall_forall; auto.
  - rewrite E1, E2. cbn [bind]. destruct R as (-> & Lv & F). rewrite Forall_forall in F.
    assert (P : forall k, k < 4 -> rd (pick d0 c ve) k = Ok (nth (nth k ve 0) c d0)).
    { intros k Hk. rewrite (rd_ok _ _ d0) by (unfold pick; rewrite map_length; lia). f_equal.
      unfold pick. rewrite (nth_indep _ d0 (nth 0 c d0)) by (rewrite map_length; lia). rewrite (map_nth (fun i => nth i c d0)). reflexivity. }
    rewrite !P by lia. rewrite !(rd_ok ve _ 0) by lia. cbn [bind]. rewrite !tab_at by (auto; apply F; apply nth_In; lia). reflexivity.
Qed.

Lemma quadOrder_ok c lv : length c = 4 -> Permutation lv [0; 1; 2; 3] ->
  let p i := nth (nth i lv 0) c d0 in let x i := crd (p i) 0 in let y i := crd (p i) 1 in
  (x 0%nat < x 1%nat)%Q -> (x 3%nat < x 2%nat)%Q -> (y 0%nat < y 2%nat)%Q -> (y 0%nat < y 3%nat)%Q -> (y 1%nat < y 2%nat)%Q -> (y 1%nat < y 3%nat)%Q ->
  quadOrder c = Ok lv.
Proof.
  intros L P p x y X01 X32 Y02 Y03 Y12 Y13. rewrite quadOrder_tab by auto.
  destruct (perm_nth4 c L) as (c0 & c1 & c2 & c3 & ->).
  assert (T : forall a b, (a < b)%Q -> Qltb a b = true /\ Qltb b a = false).
  { intros a b H. split; [apply Qltb_lt; auto|apply Qltb_ge; lra]. }
  assert (I : forall a, Qltb a a = false) by (intros; apply Qltb_ge; lra).
  assert (U : forall a b, Qltb a b = true -> Qltb b a = false) by (intros a b H; apply Qltb_lt in H; apply Qltb_ge; lra).
  apply T in X01, X32, Y02, Y03, Y12, Y13. unfold x, y, p in *. clear x y p T.
  apply perms4 in P. cbn [In allPerms4] in P. unfold tab. cbn [map]. rewrite !I.
  repeat (destruct P as [<-|P]; [cbn [nth] in *;
    destruct X01 as [-> ->], X32 as [-> ->], Y02 as [-> ->], Y03 as [-> ->], Y12 as [-> ->], Y13 as [-> ->];
    repeat match goal with |- context [Qltb (crd ?a 1) (crd ?b 1)] =>
      let E := fresh in destruct (Qltb (crd a 1) (crd b 1)) eqn:E; [rewrite ?(U _ _ E)|] end;
    reflexivity|]). destruct P.
Qed.

Lemma quad_faces lv : Permutation lv [0; 1; 2; 3] -> exists q, quadFaces lv = Ok q /\ Permutation q [0; 1; 2; 3] /\ okq QUAD4R lv lv q.
Proof.
  assert (S : forall q, sortNat q = [0; 1; 2; 3] -> Permutation q [0; 1; 2; 3]) by (intros q <-; apply sortNat_perm).
  intros P. apply perms4 in P. cbn [In allPerms4] in P.
  repeat (destruct P as [<-|P]; [eexists; split; [vm_compute; reflexivity|split; [apply S; reflexivity|vm_compute; reflexivity]]|]). destruct P.
Qed.
