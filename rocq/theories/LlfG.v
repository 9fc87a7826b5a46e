(** Proofs about the sub-cells of an element: conservation, energy, net-updates, boundary conditions. *)
From Coq Require Import List Arith Bool Reals Lra Lia Permutation.
From Verif Require Import Util ElSpec ElWave ElFace Llf LlfSpec LlfV LlfW LlfE.
Import ListNotations.
Open Scope R_scope.

(** ** Sums *)
Lemma rsum_app l l' : rsum (l ++ l') = rsum l + rsum l'. Proof. unfold rsum. induction l; cbn; lra. Qed.
Lemma rsum_perm l l' : Permutation l l' -> rsum l = rsum l'. Proof. unfold rsum. induction 1; cbn in *; lra. Qed.
Lemma rsum_add {A} (f g : A -> R) l : rsum (map (fun x => f x + g x) l) = rsum (map f l) + rsum (map g l). Proof. unfold rsum. induction l; cbn in *; lra. Qed.
Lemma rsum_scal {A} c (f : A -> R) l : rsum (map (fun x => c * f x) l) = c * rsum (map f l). Proof. unfold rsum. induction l; cbn in *; lra. Qed.
Lemma rsum_le {A} (f g : A -> R) l : (forall x, In x l -> f x <= g x) -> rsum (map f l) <= rsum (map g l).
Proof. unfold rsum. induction l as [|a l IH]; intros H; cbn; [lra|]. assert (f a <= g a) by (apply H; now left). assert (X : forall x, In x l -> f x <= g x) by (intros; apply H; now right). specialize (IH X). lra. Qed.
Lemma rsum_ext {A} (f g : A -> R) l : (forall x, In x l -> f x = g x) -> rsum (map f l) = rsum (map g l). Proof. intros H. f_equal. apply map_ext_in. auto. Qed.
Lemma rsum_zero {A} (f : A -> R) l : (forall x, In x l -> f x = 0) -> rsum (map f l) = 0.
Proof. unfold rsum. induction l as [|a l IH]; intros H; cbn; [lra|]. rewrite IH by (intros; apply H; now right). rewrite H by (now left). lra. Qed.
Lemma rsum_split {A} (p : A -> bool) (f : A -> R) l : rsum (map f l) = rsum (map f (filter p l)) + rsum (map f (filter (fun x => negb (p x)) l)).
Proof. unfold rsum. induction l as [|a l IH]; cbn; [lra|]. destruct (p a); cbn; lra. Qed.
Lemma nth_vsum n l i : (forall a, In a l -> length a = n) -> nth i (vsum n l) 0 = rsum (map (fun a => nth i a 0) l).
Proof.
  unfold rsum. induction l as [|a l IH]; intros H; cbn [vsum fold_right map]; [apply nth_zeros|]. fold (vsum n l). rewrite nth_vadd.
  - rewrite IH by (intros; apply H; now right). reflexivity.
  - rewrite len_vsum by (intros; apply H; now right). apply H. now left.
Qed.

(** ** Positions of sub-faces *)
Definition pos (g : list (list subface)) : list (nat * nat) := flat_map (fun i => map (pair i) (seq 0 (length (nth i g [])))) (seq 0 (length g)).
Lemma in_pos g p : In p (pos g) <-> exists s, sfAt g p = Some s.
Proof.
  unfold pos, sfAt. destruct p as (i & k). cbn [fst snd]. split.
  - intros H. apply in_flat_map in H. destruct H as (i' & Hi & H). apply in_map_iff in H. destruct H as (k' & E & Hk). injection E as -> ->. apply in_seq in Hi, Hk. rewrite (nth_error_nth' g []) by lia. exists (nth k (nth i g []) {| sAd := 0; sTy := Outer 0 |}). apply nth_error_nth'. lia.
  - intros (s & H). destruct (nth_error g i) as [sc|] eqn:E; [|discriminate]. apply in_flat_map. exists i. assert (i < length g)%nat by (apply nth_error_Some; congruence). split; [apply in_seq; lia|]. apply in_map. apply in_seq.
    rewrite (nth_error_nth g i [] E). assert (k < length sc)%nat by (apply nth_error_Some; congruence). lia.
Qed.
Lemma nodup_pos g : NoDup (pos g).
Proof.
  unfold pos. generalize (seq_NoDup (length g) 0). generalize (seq 0 (length g)) as l. induction l as [|i l IH]; intros N; cbn; [constructor|]. inversion N; subst.
  assert (X : forall l1 l2 : list (nat * nat), NoDup l1 -> NoDup l2 -> (forall x, In x l1 -> ~ In x l2) -> NoDup (l1 ++ l2)).
  { clear. induction l1 as [|a l1 IH]; intros l2 N1 N2 D; cbn; auto. inversion N1; subst. constructor.
    - intros H. apply in_app_or in H. destruct H; [auto|]. apply (D a); auto. now left.
    - apply IH; auto. intros x Hx. apply D. now right. }
  apply X; auto.
  - apply FinFun.Injective_map_NoDup; [intros a b E; congruence|apply seq_NoDup].
  - intros (a & b) Ha Hb. apply in_map_iff in Ha. destruct Ha as (k & E & _). injection E as <- <-. apply in_flat_map in Hb. destruct Hb as (i' & Hi & Hk). apply in_map_iff in Hk. destruct Hk as (k' & E & _). injection E as -> ->. auto.
Qed.
(** value at a position *)
Definition valAt (g : list (list subface)) (F : nat -> subface -> R) (p : nat * nat) : R := match sfAt g p with Some s => F (fst p) s | None => 0 end.
Definition innerAt (g : list (list subface)) (p : nat * nat) : bool := match sfAt g p with Some s => inner s | None => false end.

Lemma map_seq_nth {A B} (f : A -> B) (dflt : A) l : map f l = map (fun k => f (nth k l dflt)) (seq 0 (length l)).
Proof. induction l as [|a l IH]; cbn; auto. f_equal. rewrite IH, <- seq_shift, map_map. reflexivity. Qed.

Lemma rsum_pos (p : subface -> bool) g F : rsum (map (fun i => rsum (map (F i) (filter p (nth i g [])))) (seq 0 (length g))) =
  rsum (map (valAt g F) (filter (fun x => match sfAt g x with Some s => p s | None => false end) (pos g))).
Proof.
  unfold pos. assert (H : forall i, In i (seq 0 (length g)) -> (i < length g)%nat) by (intros i Hi; apply in_seq in Hi; lia). revert H. generalize (seq 0 (length g)) as l.
  induction l as [|i l IH]; intros H; [reflexivity|]. cbn [map flat_map]. rewrite filter_app, map_app, rsum_app. rewrite <- IH by (intros; apply H; now right). unfold rsum at 1. cbn [fold_right]. fold (rsum (map (fun i => rsum (map (F i) (filter p (nth i g [])))) l)).
  f_equal. assert (Hi : (i < length g)%nat) by (apply H; now left). assert (E : forall k, sfAt g (i, k) = nth_error (nth i g []) k) by (intros; unfold sfAt; cbn [fst snd]; rewrite (nth_error_nth' g []) by auto; reflexivity).
  unfold rsum. f_equal. clear IH H. unfold valAt. set (sc := nth i g []) in *. rewrite <- (map_id sc) at 1. rewrite (map_seq_nth _ {| sAd := 0; sTy := Outer 0 |} sc).
  assert (K : forall k, In k (seq 0 (length sc)) -> (k < length sc)%nat) by (intros k Hk; apply in_seq in Hk; lia). revert K. generalize (seq 0 (length sc)) as ks. induction ks as [|k ks IH]; intros K; [reflexivity|].
  cbn [map filter]. rewrite E, (nth_error_nth' sc {| sAd := 0; sTy := Outer 0 |}) by (apply K; now left). destruct (p _) eqn:P.
  - cbn [map]. rewrite E, (nth_error_nth' sc {| sAd := 0; sTy := Outer 0 |}) by (apply K; now left). f_equal. apply IH. intros; apply K; now right.
  - apply IH. intros; apply K; now right.
Qed.
Lemma filter_true {A} (l : list A) : filter (fun _ => true) l = l. Proof. induction l; cbn; congruence. Qed.

(** pairs of inner sub-faces: what cancels or decreases in pairs, does so in total *)
Lemma paired_le d nsf e g F : paired d nsf e g -> (forall p s p' s', sfAt g p = Some s -> sfAt g p' = Some s' -> inner s = true -> inner s' = true -> sAd s = fst p' -> sAd s' = fst p ->
    sfArea nsf e (sTy s') = sfArea nsf e (sTy s) -> (forall i, (i < d)%nat -> sfNormal e (sTy s') i = - sfNormal e (sTy s) i) -> F (fst p) s + F (fst p') s' <= 0) ->
  rsum (map (fun i => rsum (map (F i) (filter inner (nth i g [])))) (seq 0 (length g))) <= 0.
Proof.
  intros (pr & P) H. rewrite rsum_pos. set (P0 := filter _ (pos g)).
  assert (I0 : forall p, In p P0 <-> exists s, sfAt g p = Some s /\ inner s = true).
  { intros p. unfold P0. rewrite filter_In, in_pos. split.
    - intros ((s & E) & B). rewrite E in B. eauto.
    - intros (s & E & B). rewrite E. eauto. }
  assert (PP : Permutation (map pr P0) P0).
  { apply NoDup_Permutation.
    - apply (NoDup_map_inv pr). rewrite map_map. rewrite (map_ext_in (fun x => pr (pr x)) (fun x => x)); [rewrite map_id; apply NoDup_filter, nodup_pos|]. intros p Hp. apply I0 in Hp. destruct Hp as (s & E & B). apply (P p s); auto.
    - apply NoDup_filter, nodup_pos.
    - intros p. rewrite in_map_iff. split.
      + intros (p' & <- & H'). apply I0 in H'. destruct H' as (s & E & B). destruct (P p' s E B) as (_ & s' & E' & B' & _). apply I0. eauto.
      + intros H'. apply I0 in H'. destruct H' as (s & E & B). destruct (P p s E B) as (X & s' & E' & B' & _). exists (pr p). split; auto. apply I0. eauto. }
  assert (S2 : rsum (map (valAt g F) P0) = rsum (map (fun p => valAt g F (pr p)) P0)) by (rewrite <- (map_map pr (valAt g F)); apply rsum_perm; symmetry; apply Permutation_map; exact PP).
  assert (T : rsum (map (fun p => valAt g F p + valAt g F (pr p)) P0) <= 0).
  { rewrite <- (rsum_zero (fun _ => 0) P0) by auto. apply rsum_le. intros p Hp. apply I0 in Hp. destruct Hp as (s & E & B). destruct (P p s E B) as (X & s' & E' & B' & A & AR & NO). destruct (P (pr p) s' E' B') as (_ & s'' & E'' & _ & A' & _). rewrite X in A'.
    unfold valAt. rewrite E, E'. apply H; auto. }
  rewrite rsum_add, <- S2 in T. lra.
Qed.

(** ** Sub-cells of an element *)
Lemma combine_seq {A B} (F : A * B -> R) (da : A) (db : B) : forall (g : list B) (l : list A), (length g <= length l)%nat -> rsum (map F (combine l g)) = rsum (map (fun i => F (nth i l da, nth i g db)) (seq 0 (length g))).
Proof.
  intros g l H. f_equal. revert l H. induction g as [|b g IH]; intros [|a l] H; cbn in *; try reflexivity; try lia. f_equal. rewrite IH by lia. rewrite <- seq_shift, map_map. reflexivity.
Qed.
Lemma nth_error_combine' {A B} : forall (l : list A) (l' : list B) i a b, nth_error l i = Some a -> nth_error l' i = Some b -> nth_error (combine l l') i = Some (a, b).
Proof. induction l as [|x l IH]; intros [|y l'] [|i] a b; cbn; intros H H'; try discriminate; [congruence|eauto]. Qed.

Section Element.
Variables (d nsf nsc : nat) (mats : list material) (e : elem) (mem : list (list R) * list R) (dt : R).
Hypothesis D : dim d.
Hypothesis W : wfElem d mats e.
Hypothesis N0 : (0 < nsc)%nat.
Hypothesis OW : forall ty, (ty < nPlanes e)%nat -> own d mats e (pscale nsf nsc e ty) mem ty.
Hypothesis OT : forall ty, (ty < nFaces e)%nat -> oth d mats e (pscale nsf nsc e ty) mem ty.

Lemma step_ok g netUp dofs out : wfGrid e (length dofs) g -> length netUp = nFaces e -> (forall q, In q dofs -> length q = nQt d) -> length g = nsc -> (nsc <= length dofs)%nat -> length out = nsc ->
  tsSc d (nFaces e) (nPlanes e) (fst mem) (snd mem) dt (adTable g) (tyTable e g) netUp nsc dofs out =
  Ok (map (fun x => vadd (fst x) (vsum (nQt d) (map (change d mats e nsf nsc dt (fun fa => nth fa netUp false) dofs (fst x)) (snd x)))) (combine dofs g)).
Proof.
  intros G NU LD Lg Ld Lo. destruct (tsSc_ok d nsf nsc mats e mem dt D W N0 OW OT g netUp dofs G NU LD out Lg Ld Lo) as (o & -> & L & H). f_equal. apply nth_error_ext'. intros i.
  destruct (nth_error g i) as [sc|] eqn:Eg.
  - assert (i < length g)%nat by (apply nth_error_Some; congruence). destruct (nth_error dofs i) as [q|] eqn:Eq; [|apply nth_error_None in Eq; lia].
    rewrite (H i sc q Eg Eq). rewrite (map_nth_error _ _ _ (nth_error_combine' _ _ _ _ _ Eq Eg)). reflexivity.
  - apply nth_error_None in Eg. rewrite (proj2 (nth_error_None o i)) by lia. symmetry. apply nth_error_None. rewrite map_length, combine_length. lia.
Qed.

(** net-updates *)
Lemma nu_ok fa dofs0 dofs1 ups : (fa < nFaces e)%nat -> length dofs0 = nsf -> length dofs1 = nsf -> length ups = nsf -> (forall q, In q dofs0 -> length q = nQt d) -> (forall q, In q dofs1 -> length q = nQt d) ->
  nuFaSf d (nPlanes e) (fst mem) (snd mem) dt nsf fa dofs0 dofs1 ups =
  Ok (map (fun x => vscale (- (dt / scVol nsc e * sfArea nsf e (Outer fa))) (llf d (matEl mats e) (matAd mats e (Outer fa)) (sfNormal e (Outer fa)) (fst x) (snd x))) (combine dofs0 dofs1)).
Proof.
  intros Hf L0 L1 Lu Q0 Q1. unfold nuFaSf.
  match goal with |- for_ 0 nsf ?b ups = Ok ?r => destruct (for_ok (fun k o => length o = nsf /\ forall i, (i < k)%nat -> nth_error o i = nth_error r i) 0 nsf b ups) as (o & E & L & H) end.
  - lia.
  - split; auto. intros; lia.
  - intros k o Hk (Lo & H). destruct (nth_error dofs0 k) as [q|] eqn:E0; [|apply nth_error_None in E0; lia]. destruct (nth_error dofs1 k) as [qa|] eqn:E1; [|apply nth_error_None in E1; lia].
    rewrite (rd_some _ _ _ E0), (rd_some _ _ _ E1). cbn [bind]. assert (T := type_ok d nsf nsc mats e mem N0 OW OT (Outer fa) Hf). cbn [ids] in T. destruct T as (C0 & C1 & v & A0 & A1 & Av & S0 & S1 & V).
    rewrite Nat.max_r in Av by lia. rewrite (rd_some _ _ _ A0), (rd_some _ _ _ A1), (rd_some _ _ _ Av). cbn [bind].
    assert (Lq : length q = nQt d) by (apply Q0; apply nth_error_In with k; auto). assert (La : length qa = nQt d) by (apply Q1; apply nth_error_In with k; auto).
    assert (C := contrib d nsf nsc mats e mem dt D W N0 OW OT (Outer fa) q qa (repeat 0 (nQts d)) C0 C1 v Hf Lq La). cbn [ids fst] in C. rewrite C; auto; [|rewrite repeat_length; apply nQts_eq; auto]. cbn [bind]. rewrite wr_ok by lia.
    eexists. split; [reflexivity|]. split; [rewrite length_upd; auto|]. intros i Hi. destruct (Nat.eq_dec i k) as [->|N]; [|rewrite nth_error_upd_ne by auto; apply H; lia].
    rewrite nth_error_upd_eq by lia. rewrite (map_nth_error _ _ _ (nth_error_combine' _ _ _ _ _ E0 E1)). f_equal. rewrite (nQts_eq d D). cbn [fst snd]. unfold flx.
    apply (vec_ext (nQt d)); [apply len_vadd; len1|len1|]; auto; try (apply repeat_length). intros j _. rewrite nth_vadd by (rewrite repeat_length; symmetry; len1; auto). fold (zeros (nQt d)). rewrite nth_zeros. ring.
  - rewrite E. f_equal. apply nth_error_ext'. intros i. destruct (Nat.lt_ge_cases i nsf); [apply H; auto|]. rewrite (proj2 (nth_error_None _ i)) by lia. symmetry. apply nth_error_None. rewrite map_length, combine_length. lia.
Qed.

Variables (g : list (list subface)) (dofs : list (list R)) (netUp : nat -> bool).
Hypothesis G : wfGrid e (length dofs) g.
Hypothesis LD : forall q, In q dofs -> length q = nQt d.
Hypothesis Lg : length g = nsc.
Hypothesis Ld : (nsc <= length dofs)%nat.
Notation chg' := (change d mats e nsf nsc dt netUp dofs).
Notation flx' := (flx d nsf nsc mats e dt).

Lemma len_chg' q s : length q = nQt d -> (sAd s < length dofs)%nat -> length (chg' q s) = nQt d.
Proof.
  intros L A. assert (X : length (nth (sAd s) dofs []) = nQt d) by (apply LD, nth_In; auto). unfold change. assert (Y := len_flx d nsf nsc mats e dt D (sTy s) q _ L X). unfold flx in Y. destruct (sTy s); auto. destruct (netUp fa); auto.
Qed.
Lemma sfAt_ok p s : sfAt g p = Some s -> (fst p < nsc)%nat /\ (sAd s < length dofs)%nat /\ validType e (sTy s) /\ In s (nth (fst p) g []).
Proof.
  unfold sfAt. intros H. destruct (nth_error g (fst p)) as [sc|] eqn:E; [|discriminate]. assert (fst p < length g)%nat by (apply nth_error_Some; congruence). destruct (G sc (nth_error_In _ _ E)) as (_ & V). destruct (V s (nth_error_In _ _ H)). rewrite (nth_error_nth _ _ _ E).
  repeat split; auto; [lia|apply nth_error_In with (snd p); auto].
Qed.

(** ** Conservation *)
Lemma conserve c : paired d nsf e g ->
  rsum (map (fun x => nth c (vadd (fst x) (vsum (nQt d) (map (chg' (fst x)) (snd x)))) 0) (combine dofs g)) =
  rsum (map (fun x => nth c (fst x) 0) (combine dofs g)) + rsum (map (fun x => rsum (map (fun s => nth c (chg' (fst x) s) 0) (filter (fun s => negb (inner s)) (snd x)))) (combine dofs g)).
Proof.
  intros P. rewrite (rsum_ext (fun x => nth c (vadd (fst x) (vsum (nQt d) (map (chg' (fst x)) (snd x)))) 0)
    (fun x => nth c (fst x) 0 + (rsum (map (fun s => nth c (chg' (fst x) s) 0) (filter inner (snd x))) + rsum (map (fun s => nth c (chg' (fst x) s) 0) (filter (fun s => negb (inner s)) (snd x)))))).
  2:{ intros (q & sc) H. cbn [fst snd]. assert (Lq : length q = nQt d) by (apply LD; apply in_combine_l in H; auto). destruct (G sc) as (_ & V); [apply in_combine_r in H; auto|].
      assert (LC : forall a, In a (map (chg' q) sc) -> length a = nQt d) by (intros a Ha; apply in_map_iff in Ha; destruct Ha as (s & <- & Hs); apply len_chg'; auto; apply V; auto).
      rewrite nth_vadd by (rewrite len_vsum; auto). rewrite nth_vsum by auto. rewrite map_map, <- rsum_split. reflexivity. }
  rewrite rsum_add, rsum_add. rewrite (combine_seq (fun x => rsum (map (fun s => nth c (chg' (fst x) s) 0) (filter inner (snd x)))) [] [] g dofs) by lia. cbn [fst snd].
  set (F := fun i s => nth c (chg' (nth i dofs []) s) 0). change (rsum (map (fun x => nth c (fst x) 0) (combine dofs g)) + (rsum (map (fun i => rsum (map (F i) (filter inner (nth i g [])))) (seq 0 (length g))) +
    rsum (map (fun x => rsum (map (fun s => nth c (chg' (fst x) s) 0) (filter (fun s => negb (inner s)) (snd x)))) (combine dofs g))) = rsum (map (fun x => nth c (fst x) 0) (combine dofs g)) + rsum (map (fun x => rsum (map (fun s => nth c (chg' (fst x) s) 0) (filter (fun s => negb (inner s)) (snd x)))) (combine dofs g))).
  assert (Z : forall p s p' s', sfAt g p = Some s -> sfAt g p' = Some s' -> inner s = true -> inner s' = true -> sAd s = fst p' -> sAd s' = fst p ->
    sfArea nsf e (sTy s') = sfArea nsf e (sTy s) -> (forall i, (i < d)%nat -> sfNormal e (sTy s') i = - sfNormal e (sTy s) i) -> F (fst p) s + F (fst p') s' = 0).
  { intros p s p' s' E E' B B' A A' AR NO. destruct (sfAt_ok _ _ E) as (H1 & _). destruct (sfAt_ok _ _ E') as (H2 & _).
    assert (L1 : length (nth (fst p) dofs []) = nQt d) by (apply LD, nth_In; lia). assert (L2 : length (nth (fst p') dofs []) = nQt d) by (apply LD, nth_In; lia).
    assert (C : forall q s, inner s = true -> chg' q s = flx' (sTy s) q (nth (sAd s) dofs [])) by (intros q0 s0 I; unfold change, inner, flx in *; destruct (sTy s0); try discriminate; reflexivity).
    assert (M : forall s, inner s = true -> matAd mats e (sTy s) = matEl mats e) by (intros s0 I; unfold inner in I; destruct (sTy s0); try discriminate; reflexivity).
    unfold F. rewrite !C by auto. unfold flx. rewrite A, A', AR, !M by auto. rewrite (llf_ext d _ _ (sfNormal e (sTy s')) (neg (sfNormal e (sTy s)))) by auto. rewrite llf_swap by auto. rewrite !nth_vscale. ring. }
  assert (LE := paired_le d nsf e g F P). assert (GE := paired_le d nsf e g (fun i s => - F i s) P).
  assert (X : rsum (map (fun i => rsum (map (F i) (filter inner (nth i g [])))) (seq 0 (length g))) <= 0) by (apply LE; intros p s p' s' h1 h2 h3 h4 h5 h6 h7 h8; right; eapply Z; eauto).
  assert (Y : rsum (map (fun i => rsum (map (fun s => - F i s) (filter inner (nth i g [])))) (seq 0 (length g))) <= 0).
  { apply GE. intros p s p' s' h1 h2 h3 h4 h5 h6 h7 h8. assert (F (fst p) s + F (fst p') s' = 0) by (eapply Z; eauto). lra. }
  assert (Q : rsum (map (fun i => rsum (map (fun s => - F i s) (filter inner (nth i g [])))) (seq 0 (length g))) = - rsum (map (fun i => rsum (map (F i) (filter inner (nth i g [])))) (seq 0 (length g)))).
  { rewrite (rsum_ext (fun i => rsum (map (fun s => - F i s) (filter inner (nth i g [])))) (fun i => -1 * rsum (map (F i) (filter inner (nth i g []))))); [rewrite rsum_scal; ring|].
    intros i _. rewrite <- rsum_scal. apply rsum_ext. intros. ring. }
  lra.
Qed.
End Element.
