(** The constructor of EDGEcut's extrusion for grids: sorting, sizes, sides. *)
From Coq Require Import QArith Qcanon Qround Sorting.Sorted Sorting.Permutation.
From Verif Require Import Util MeshSort Extrude ExtrudeSpec ExtrudeP.
Open Scope nat_scope.

(** ** Order *)
Lemma qlt_true a b : qlt a b = true <-> (a < b)%Qc.
Proof. unfold qlt. rewrite Qclt_alt. destruct (a ?= b)%Qc; split; congruence. Qed.
Lemma qlt_false a b : qlt a b = false <-> (b <= a)%Qc.
Proof.
  rewrite <- not_true_iff_false, qlt_true. split; [apply Qcnot_lt_le|]. intros H L. exact (Qcle_not_lt _ _ H L).
Qed.
Lemma qlt_irr a : qlt a a = false.
Proof. apply qlt_false. apply Qcle_refl. Qed.
Lemma qlt_tri a b : qlt a b = true \/ a = b \/ qlt b a = true.
Proof. destruct (Qc_dec a b) as [[H|H]|H]; [left|right; right|right; left]; try apply qlt_true; auto. Qed.
Lemma qlt_asym a b : qlt a b = true -> qlt b a = false.
Proof. rewrite qlt_true, qlt_false. apply Qclt_le_weak. Qed.
Lemma qlt_trans a b c : qlt a b = true -> qlt b c = true -> qlt a c = true.
Proof. rewrite !qlt_true. apply Qclt_trans. Qed.

Definition lexP (p q : point) : Prop := (px p < px q)%Qc \/ (px p = px q /\ ((py p < py q)%Qc \/ (py p = py q /\ (pz p < pz q)%Qc))).
Lemma ptLt_lex p q : ptLt p q = true <-> lexP p q.
Proof.
  unfold ptLt, lexP. destruct (qlt (px p) (px q)) eqn:A.
  { apply qlt_true in A. tauto. }
  destruct (qlt (px q) (px p)) eqn:B.
  { apply qlt_true in B. split; [discriminate|]. intros [H|[H _]]; [|rewrite H in B; destruct (Qclt_not_eq _ _ B); auto].
    apply qlt_true, qlt_asym in H. apply qlt_true in B. congruence. }
  assert (E : px p = px q) by (destruct (qlt_tri (px p) (px q)) as [?|[?|?]]; congruence).
  assert (N : ~ (px p < px q)%Qc) by (rewrite <- qlt_true; congruence).
  destruct (qlt (py p) (py q)) eqn:C.
  { apply qlt_true in C. tauto. }
  assert (N' : ~ (py p < py q)%Qc) by (rewrite <- qlt_true; congruence).
  destruct (qlt (py q) (py p)) eqn:D.
  { split; [discriminate|]. apply qlt_true in D. intros [H|[_ [H|[H _]]]]; try tauto. rewrite H in D. destruct (Qclt_not_eq _ _ D); auto. }
  assert (E' : py p = py q) by (destruct (qlt_tri (py p) (py q)) as [?|[?|?]]; congruence).
  rewrite qlt_true. tauto.
Qed.
Lemma lex_irr p : ~ lexP p p.
Proof. unfold lexP. intros [H|[_ [H|[_ H]]]]; destruct (Qclt_not_eq _ _ H); auto. Qed.
Lemma lex_trans p q r : lexP p q -> lexP q r -> lexP p r.
Proof.
  unfold lexP. intros [A|(A & [B|(B & C)])] [A'|(A' & [B'|(B' & C')])]; rewrite ?A, ?B in *;
  try (left; congruence); try (left; eapply Qclt_trans; eassumption); try (left; rewrite <- A'; assumption);
  right; split; try congruence; try (left; rewrite <- B'; assumption); try (left; eapply Qclt_trans; eassumption); try (left; assumption);
  right; split; try congruence; eapply Qclt_trans; eassumption.
Qed.
Lemma lex_tri p q : lexP p q \/ p = q \/ lexP q p.
Proof.
  unfold lexP. destruct (Qc_dec (px p) (px q)) as [[H|H]|H]; [tauto|tauto|]. destruct (Qc_dec (py p) (py q)) as [[H1|H1]|H1]; [tauto|intuition auto|].
  destruct (Qc_dec (pz p) (pz q)) as [[H2|H2]|H2]; [tauto|intuition auto|]. right. left. destruct p as [[a b] c], q as [[a' b'] c']. cbn in *. congruence.
Qed.
Lemma ptLt_false p q : ptLt p q = false <-> q = p \/ lexP q p.
Proof.
  rewrite <- not_true_iff_false, ptLt_lex. destruct (lex_tri p q) as [H|[H|H]]; split; intros K; auto; try tauto.
  - destruct K as [->|K]; [destruct (lex_irr _ H)|destruct (lex_irr p); eapply lex_trans; eauto].
  - subst. apply lex_irr.
  - intros L. destruct (lex_irr p). eapply lex_trans; eauto.
Qed.
Lemma ptLt_weak l : strictWeak ptLt l.
Proof.
  split.
  - intros a b _ _ H. apply ptLt_false. right. apply ptLt_lex. exact H.
  - intros a b c _ _ _. rewrite !ptLt_false. intros [->|H] [->|K]; auto. right. eapply lex_trans; eauto.
Qed.

(** a sorted permutation is unique *)
Lemma sorted_unique l : forall m, Permutation l m -> StronglySorted (fun a b => ptLt b a = false) l -> StronglySorted (fun a b => ptLt b a = false) m -> l = m.
Proof.
  induction l as [|a l IH]; intros m P S T; [apply Permutation_nil in P; auto|].
  destruct m as [|b m]; [apply Permutation_sym, Permutation_nil in P; discriminate|].
  apply StronglySorted_inv in S, T. destruct S as [S A], T as [T B]. rewrite Forall_forall in A, B.
  assert (E : a = b).
  { pose proof (Permutation_in a P (or_introl eq_refl)) as I. pose proof (Permutation_in b (Permutation_sym P) (or_introl eq_refl)) as J.
    destruct I as [->|I]; auto. destruct J as [->|J]; auto. apply A in J. apply B in I. apply ptLt_false in J, I.
    destruct J as [->|J]; auto. destruct I as [->|I]; auto. destruct (lex_irr a). eapply lex_trans; eauto. }
  subst b. f_equal. apply IH; auto. eapply Permutation_cons_inv; eauto.
Qed.

(** ** Arrays of rows *)
Lemma flat_len {A} (g : nat -> nat -> A) n m : forall a, length (flat_map (fun i => map (g i) (seq 0 n)) (seq a m)) = m * n.
Proof. induction m as [|m IH]; intros a; cbn [seq flat_map]; auto. rewrite app_length, map_length, seq_length, IH. lia. Qed.
Lemma flat_nth {A} (g : nat -> nat -> A) n j m : j < n -> forall a i, i < m -> nth_error (flat_map (fun i => map (g i) (seq 0 n)) (seq a m)) (i * n + j) = Some (g (a + i) j).
Proof.
  intros Hj. induction m as [|m IH]; intros a i Hi; [lia|]. cbn [seq flat_map]. destruct i as [|i].
  - rewrite nth_error_app1 by (rewrite map_length, seq_length; lia). cbn [Nat.mul Nat.add].
    rewrite nth_error_map. rewrite (nth_error_nth' _ 0) by (rewrite seq_length; lia). rewrite seq_nth by lia. cbn. rewrite Nat.add_0_r. reflexivity.
  - rewrite nth_error_app2; rewrite map_length, seq_length; [|lia]. replace (S i * n + j - n) with (i * n + j) by lia. rewrite IH by lia. f_equal. f_equal. lia.
Qed.
Lemma rev_map_seq {A} (f : nat -> A) n : rev (map f (seq 0 n)) = map (fun k => f (n - 1 - k)) (seq 0 n).
Proof.
  induction n as [|n IH]; [reflexivity|]. rewrite seq_S at 1. rewrite map_app, rev_app_distr, IH. cbn [map rev app Nat.add].
  cbn [seq map]. replace (S n - 1 - 0) with n by lia. f_equal. rewrite <- seq_shift, map_map. apply map_ext. intros k. f_equal. lia.
Qed.

Lemma steps0 n st r : 0 < r -> r <= st -> steps 0 (n * st + r) st = map (fun k => k * st) (seq 0 (S n)).
Proof.
  intros H H'. unfold steps. replace ((n * st + r - 0 + st - 1) / st) with (S n); [reflexivity|].
  replace (n * st + r - 0 + st - 1) with (S n * st + (r - 1)) by lia. rewrite Nat.div_add_l by lia. rewrite Nat.div_small by lia. lia.
Qed.
Lemma rdAll_map l (q : nat -> nat) (P : nat -> point) is : (forall k, In k is -> nth_error l (q k) = Some (P k)) -> rdAll l (map q is) = Ok (map P is).
Proof.
  induction is as [|a is IH]; intros H; cbn [map rdAll]; auto. unfold rd. rewrite (H a) by (left; auto). cbn [bind]. rewrite IH by (intros; apply H; right; auto). reflexivity.
Qed.

(** ** First jump, minima, maximum *)
Lemma jump_col eps x p rest col : (0 <= eps)%Qc -> col <> [] -> (forall q, In q col -> px q = x) -> (eps < px p - x)%Qc -> jump eps (col ++ p :: rest) = Some (length col).
Proof.
  intros He. induction col as [|a col IH]; intros N H J; [congruence|]. destruct col as [|b col].
  - cbn [app jump]. rewrite (H a) by (left; auto).
    assert (L : qlt (x - px p) 0 = true).
    { apply qlt_true. pose proof (Qcle_lt_trans _ _ _ He J) as K. apply Qclt_minus_iff. replace (0 + - (x - px p))%Qc with (px p - x)%Qc by ring. exact K. }
    unfold qabs. rewrite L. replace (- (x - px p))%Qc with (px p - x)%Qc by ring. apply qlt_true in J. rewrite J. reflexivity.
  - cbn [app]. change (jump eps (a :: b :: col ++ p :: rest)) with (if qlt eps (qabs (px a - px b)) then Some 1 else option_map S (jump eps (b :: col ++ p :: rest))).
    rewrite (H a), (H b) by (cbn; auto). replace (x - x)%Qc with 0%Qc by ring. unfold qabs. rewrite qlt_irr.
    apply qlt_false in He. rewrite He. cbn [app] in IH. rewrite IH; [reflexivity|discriminate| |exact J]. intros q Q. apply H. right. exact Q.
Qed.

Definition opos (a : option Qc) : Prop := match a with None => True | Some v => (0 < v)%Qc end.
Lemma foldMin_ok f l : (forall i, In i l -> exists v, f i = Ok v /\ (0 < v)%Qc) -> forall a, opos a ->
  exists b, foldMin f l a = Ok b /\ opos b /\ (l <> [] \/ a <> None -> b <> None).
Proof.
  induction l as [|i l IH]; intros H a A; cbn [foldMin]; [exists a; intuition congruence|].
  destruct (H i) as (v & -> & V); [left; auto|]. cbn [bind]. destruct (IH (fun j J => H j (or_intror J)) (omin a v)) as (b & B & P & N).
  { destruct a as [a|]; cbn; auto. destruct (qlt v a); auto. }
  exists b. split; [exact B|]. split; [exact P|]. intros _. apply N. right. destruct a; discriminate.
Qed.

Lemma foldMin_le f l : forall a b, foldMin f l a = Ok (Some b) -> (forall v, a = Some v -> (b <= v)%Qc) /\ forall i v, In i l -> f i = Ok v -> (b <= v)%Qc.
Proof.
  induction l as [|i l IH]; intros a b H; cbn [foldMin] in H.
  - injection H as ->. split; [intros v E; injection E as ->; apply Qcle_refl|intros i v []].
  - destruct (f i) as [w|] eqn:E; [|discriminate]. cbn [bind] in H. destruct (IH _ _ H) as [A B].
    assert (W : (b <= w)%Qc /\ forall v, a = Some v -> (b <= v)%Qc).
    { destruct a as [a|]; cbn [omin] in A; [|split; [apply A; reflexivity|discriminate]]. specialize (A _ eq_refl). destruct (qlt w a) eqn:L.
      - apply qlt_true in L. split; [exact A|]. intros v V. injection V as <-. eapply Qcle_trans; [exact A|apply Qclt_le_weak; exact L].
      - apply qlt_false in L. split; [eapply Qcle_trans; [exact A|exact L]|]. intros v V. injection V as <-. exact A. }
    split; [exact (proj2 W)|]. intros j v [<-|J] F; [|exact (B j v J F)]. rewrite E in F. injection F as <-. exact (proj1 W).
Qed.
Lemma floor_lt (q : Qc) : (0 < q)%Qc -> (q < ofNat (Z.to_nat (Qfloor q) + 1))%Qc.
Proof.
  intros H. unfold ofNat, Qclt, Q2Qc. cbn [this]. rewrite Qred_correct. rewrite Nat2Z.inj_add, Z2Nat.id; [apply Qlt_floor|].
  change 0%Z with (Qfloor 0). apply Qfloor_resp_le. apply Qlt_le_weak. exact H.
Qed.
Lemma div_pos (a b : Qc) : (0 < a)%Qc -> (0 < b)%Qc -> (0 < a / b)%Qc.
Proof.
  intros A B. apply Qcnot_le_lt. intros H. apply (Qcmult_le_compat_r _ _ b) in H; [|apply Qclt_le_weak; exact B].
  replace (a / b * b)%Qc with a in H; [|field; intros E; rewrite E in B; destruct (Qclt_not_eq _ _ B); reflexivity].
  replace (0 * b)%Qc with 0%Qc in H by ring. exact (Qcle_not_lt _ _ H A).
Qed.

Lemma maxZ_ge l p : In p l -> exists m, maxZ l = Some m /\ (pz p <= m)%Qc.
Proof.
  unfold maxZ. set (g := fun (a : option Qc) (p : point) => _).
  assert (U : forall l a, exists m, fold_left g l (Some a) = Some m /\ (a <= m)%Qc).
  { induction l0 as [|q l0 IH]; intros a; cbn [fold_left]; [exists a; split; auto; apply Qcle_refl|]. unfold g at 2.
    destruct (qlt a (pz q)) eqn:E; [|apply IH]. destruct (IH (pz q)) as (m & M & L). exists m. split; auto. apply qlt_true in E. eapply Qcle_trans; [apply Qclt_le_weak; exact E|exact L]. }
  assert (V : forall l a, In p l -> exists m, fold_left g l a = Some m /\ (pz p <= m)%Qc).
  { induction l0 as [|q l0 IH]; intros a I; [destruct I|]. cbn [fold_left]. destruct I as [->|I]; [|apply IH; auto].
    destruct a as [a|]; unfold g at 2; [|apply U]. destruct (qlt a (pz p)) eqn:E; [apply U|]. destruct (U l0 a) as (m & M & L). exists m. split; auto.
    apply qlt_false in E. eapply Qcle_trans; eauto. }
  apply V.
Qed.

(** ** Grids *)
Lemma step_incr (X : nat -> Qc) n : (forall i, S i < n -> (X i < X (S i))%Qc) -> incr X n.
Proof.
  intros H i j Hij Hj. induction j as [|j IH]; [lia|]. destruct (Nat.eq_dec i j) as [->|N]; [apply H; lia|].
  eapply Qclt_trans; [apply IH; lia|apply H; lia].
Qed.

Section G.
Variables (nx ny : nat) (xs ys : nat -> Qc) (zs : nat -> nat -> Qc).
Definition gp (i j : nat) : point := (xs i, ys j, zs i j).
Lemma grid_nth i j : i < nx -> j < ny -> nth_error (gridPts nx ny xs ys zs) (i * ny + j) = Some (gp i j).
Proof. intros Hi Hj. unfold gridPts. rewrite (flat_nth (fun i j => gp i j)) by auto. reflexivity. Qed.
Lemma grid_nth0 j : 0 < nx -> j < ny -> nth_error (gridPts nx ny xs ys zs) j = Some (gp 0 j).
Proof. intros Hi Hj. exact (grid_nth 0 j Hi Hj). Qed.
Lemma grid_len : length (gridPts nx ny xs ys zs) = nx * ny.
Proof. apply (flat_len (fun i j => gp i j)). Qed.
Lemma in_grid p : In p (gridPts nx ny xs ys zs) <-> exists i j, i < nx /\ j < ny /\ p = gp i j.
Proof.
  unfold gridPts. rewrite in_flat_map. split.
  - intros (i & I & P). apply in_map_iff in P. destruct P as (j & <- & J). apply in_seq in I, J. exists i, j. repeat split; try lia.
  - intros (i & j & I & J & ->). exists i. split; [apply in_seq; lia|]. apply in_map_iff. exists j. split; [reflexivity|apply in_seq; lia].
Qed.

Lemma grid_sorted : incr xs nx -> incr ys ny -> StronglySorted (fun a b => ptLt b a = false) (gridPts nx ny xs ys zs).
Proof.
  intros HX HY.
  assert (C : forall i n a, a + n <= ny -> StronglySorted (fun a b => ptLt b a = false) (map (gp i) (seq a n))).
  { intros i. induction n as [|n IH]; intros a L; cbn [seq map]; constructor; [apply IH; lia|]. apply Forall_forall. intros p P. apply in_map_iff in P.
    destruct P as (j & <- & J). apply in_seq in J. apply ptLt_false. right. right. split; [reflexivity|]. left. apply HY; lia. }
  assert (A : forall l m, StronglySorted (fun a b => ptLt b a = false) l -> StronglySorted (fun a b => ptLt b a = false) m ->
    (forall p q, In p l -> In q m -> ptLt q p = false) -> StronglySorted (fun a b => ptLt b a = false) (l ++ m)).
  { induction l as [|p l IH]; intros m S T H; cbn [app]; auto. apply StronglySorted_inv in S. destruct S as [S F]. constructor; [apply IH; auto; intros; apply H; cbn; auto|].
    apply Forall_app. split; auto. apply Forall_forall. intros q Q. apply H; cbn; auto. }
  unfold gridPts. assert (G : forall n a, a + n <= nx -> StronglySorted (fun a b => ptLt b a = false) (flat_map (fun i => map (gp i) (seq 0 ny)) (seq a n))); [|apply (G nx 0); lia].
  induction n as [|n IH]; intros a L; cbn [seq flat_map]; [constructor|]. apply A; [apply C; lia|apply IH; lia|].
  intros p q P Q. apply in_map_iff in P. destruct P as (j & <- & _). apply in_flat_map in Q. destruct Q as (i & I & Q). apply in_seq in I. apply in_map_iff in Q.
  destruct Q as (j' & <- & _). apply ptLt_false. right. left. apply HX; lia.
Qed.
End G.

Section C.
Variable srt : forall A : Type, (A -> A -> bool) -> list A -> list A.
Hypothesis HS : isSort srt.
Variables (pts : list point) (zT eps : Qc) (lv nx ny : nat) (xs ys : nat -> Qc) (zs : nat -> nat -> Qc) (m k : nat).
Hypothesis HG : isGrid pts eps nx ny xs ys zs.
Let R := 2 ^ lv.
Hypothesis Ex : nx = m * R + 1.
Hypothesis Ey : ny = k * R + 1.
Hypothesis Hlv : lv < 16.
Hypothesis Hz : exists i j, i < nx /\ j < ny /\ (zT < zs i j)%Qc.
Let P := gp xs ys zs.

Lemma Rpos : 0 < R.
Proof. apply Nat.neq_0_lt_0, Nat.pow_nonzero. lia. Qed.
Lemma mpos : 0 < m /\ 0 < k.
Proof. destruct HG as (_ & A & B & _). pose proof Rpos. nia. Qed.
Lemma xs_incr : incr xs nx.
Proof.
  destruct HG as (He & _ & _ & A & _). apply step_incr. intros i Hi. specialize (A i Hi). apply Qclt_minus_iff. eapply Qcle_lt_trans; [exact He|]. exact A.
Qed.
Lemma ys_incr : incr ys ny.
Proof. destruct HG as (_ & _ & _ & _ & A & _). apply step_incr. exact A. Qed.
Lemma surf_eq : srt point ptLt pts = gridPts nx ny xs ys zs.
Proof.
  destruct (HS point ptLt pts (ptLt_weak pts)) as [Pm S]. apply sorted_unique; auto.
  - destruct HG as (_ & _ & _ & _ & _ & Q). eapply perm_trans; [apply Permutation_sym; exact Pm|exact Q].
  - apply grid_sorted; [apply xs_incr|apply ys_incr].
Qed.
Lemma jump_eq : jump eps (gridPts nx ny xs ys zs) = Some ny.
Proof.
  destruct HG as (He & A & B & X & _). unfold gridPts. destruct nx as [|[|n]]; [lia|lia|]. cbn [seq flat_map]. destruct ny as [|n'] eqn:En; [lia|].
  cbn [seq map app]. 
  match goal with |- jump _ (?a :: ?l ++ ?b :: ?r) = _ => change (a :: l ++ b :: r) with ((a :: l) ++ b :: r) end.
  rewrite jump_col with (x := xs 0); auto; [|discriminate| |].
  - cbn [length]. rewrite map_length, seq_length. reflexivity.
  - intros q [<-|Q]; [reflexivity|]. apply in_map_iff in Q. destruct Q as (j & <- & _). reflexivity.
  - cbn [px fst]. apply X. lia.
Qed.

(** result of the constructor *)
Lemma extrude_ok : exists N, 0 < N /\
  (forall i j l, i < nx -> j < ny -> l < m -> (zs i j - zT < ofNat N * (xs (S l * R)%nat - xs (l * R)%nat))%Qc) /\
  (forall i j l, i < nx -> j < ny -> l < k -> (zs i j - zT < ofNat N * (ys (S l * R)%nat - ys l))%Qc) /\ extrude srt pts zT lv eps = Ok
  {| eSurf := gridPts nx ny xs ys zs; eNx0 := nx; eNy0 := ny; eNx1 := m + 1; eNy1 := k + 1; eRef := R; eLv := lv; eSteps := N; eZ := zT;
     eFront := addSide N zT (map (fun i => P (i * R) 0) (seq 0 (S m)));
     eBack := addSide N zT (map (fun i => P ((m - i) * R) (k * R)) (seq 0 (S m)));
     eLeft := addSide N zT (map (fun j => P 0 ((k - j) * R)) (seq 0 (S k)));
     eRight := addSide N zT (map (fun j => P (m * R) (j * R)) (seq 0 (S k))) |}.
Proof.
  pose proof Rpos as HR. pose proof mpos as [Hm Hk]. unfold extrude. rewrite surf_eq, jump_eq.
  assert (L : length pts = nx * ny). { destruct HG as (_ & _ & _ & _ & _ & Q). rewrite (Permutation_length Q). apply grid_len. }
  destruct pts as [|p0 pr] eqn:Ep; [cbn in L; nia|]. rewrite <- Ep in *. cbn [bind]. rewrite L.
  rewrite Nat.mod_mul by lia. rewrite Nat.div_mul by lia. cbn [check Nat.eqb bind].
  destruct (Nat.ltb_spec lv 16); [|lia]. cbn [bind]. fold R. rewrite (usubs_ok nx [1]), (usubs_ok ny [1]) by (cbn; nia). cbn [bind list_sum fold_right].
  replace (nx - (1 + 0)) with (m * R) by lia. replace (ny - (1 + 0)) with (k * R) by lia. rewrite !Nat.mod_mul by lia. cbn [Nat.eqb check bind].
  assert (N1 : forall n q, n = q * R + 1 -> (if 1 <? R then n / R + 1 else n) = q + 1).
  { intros n q ->. destruct (Nat.ltb_spec 1 R); [rewrite Nat.div_add_l by lia; rewrite Nat.div_small by lia; lia|]. replace R with 1 by lia. lia. }
  rewrite (N1 nx m Ex), (N1 ny k Ey). replace (k + 1 - 1) with k by lia.
  destruct (foldMin_ok (fun l => a <- rd (gridPts nx ny xs ys zs) ((l + 1) * R) ;; b <- rd (gridPts nx ny xs ys zs) l ;; Ok (py a - py b)%Qc) (seq 0 k)) with (a := @None Qc) as (dy & Fy & Py & Ny); [|exact I|].
  { intros l Hl. apply in_seq in Hl. unfold rd. rewrite (grid_nth0 nx ny xs ys zs ((l + 1) * R)) by nia.
    rewrite (grid_nth0 nx ny xs ys zs l) by nia. cbn [bind]. eexists. split; [reflexivity|]. apply Qc_sub_pos. apply ys_incr; nia. }
  rewrite Fy. cbn [bind]. rewrite (usubs_ok nx [R]) by (cbn; nia). cbn [bind list_sum fold_right].
  destruct (foldMin_ok (fun l => a <- rd (gridPts nx ny xs ys zs) (l + ny * R) ;; b <- rd (gridPts nx ny xs ys zs) l ;; Ok (px a - px b)%Qc) (steps 0 ((nx - (R + 0)) * ny) (ny * R))) with (a := @None Qc) as (dx & Fx & Px & Nx); [|exact I|].
  { destruct m as [|m'] eqn:Em; [lia|]. replace ((nx - (R + 0)) * ny) with (m' * (ny * R) + ny) by (rewrite Ex; replace (S m' * R + 1 - (R + 0)) with (m' * R + 1) by lia; ring).
    rewrite steps0 by nia. intros l Hl. apply in_map_iff in Hl. destruct Hl as (i & <- & Hi). apply in_seq in Hi. unfold rd.
    replace (i * (ny * R) + ny * R) with (S i * R * ny + 0) by ring. replace (i * (ny * R)) with (i * R * ny + 0) by ring. rewrite !grid_nth by nia. cbn [bind].
    eexists. split; [reflexivity|]. apply Qc_sub_pos. apply xs_incr; nia. }
  rewrite Fx. cbn [bind]. destruct Hz as (iz & jz & Hi & Hj & Z).
  destruct (maxZ_ge (gridPts nx ny xs ys zs) (gp xs ys zs iz jz)) as (mz & Mz & Lz); [apply in_grid; eauto|]. rewrite Mz. cbn [bind pz snd gp] in *.
  assert (D : qlt 0 (mz - zT) = true) by (apply qlt_true, Qc_sub_pos; eapply Qclt_le_trans; eauto). rewrite D. cbn [check bind].
  destruct dy as [dy|]; [|destruct Ny; auto; left; destruct k; [lia|discriminate]]. cbn [opos] in Py.
  destruct dx as [dx|]. 2:{ destruct Nx; auto. left. destruct m as [|m']; [lia|]. replace ((nx - (R + 0)) * ny) with (m' * (ny * R) + ny) by (rewrite Ex; replace (S m' * R + 1 - (R + 0)) with (m' * R + 1) by lia; ring).
    rewrite steps0 by nia. discriminate. }
  cbn [opos] in Px. cbn [bind]. remember (if qlt dy dx then dy else dx) as d eqn:Ed.
  assert (Dp : (0 < d)%Qc) by (rewrite Ed; destruct (qlt dy dx); auto).
  assert (Ddy : (d <= dy)%Qc) by (rewrite Ed; destruct (qlt dy dx) eqn:E; [apply Qcle_refl|apply qlt_false; exact E]).
  assert (Ddx : (d <= dx)%Qc) by (rewrite Ed; destruct (qlt dy dx) eqn:E; [apply Qclt_le_weak, qlt_true; exact E|apply Qcle_refl]).
  rewrite (proj2 (qlt_true 0 d) Dp). cbn [bind].
  set (N := Z.to_nat _ + 1). exists N. split; [unfold N; lia|].
  assert (Bd : forall i j g, i < nx -> j < ny -> (d <= g)%Qc -> (zs i j - zT < ofNat N * g)%Qc).
  { intros i j g Hi' Hj' Lg. assert (L1 : (zs i j - zT <= mz - zT)%Qc).
    { destruct (maxZ_ge (gridPts nx ny xs ys zs) (gp xs ys zs i j)) as (mz' & M' & L'); [apply in_grid; eauto|]. rewrite Mz in M'. injection M' as <-.
      unfold Qcminus. apply Qcplus_le_compat; [exact L'|apply Qcle_refl]. }
    apply qlt_true in D. assert (L2 : (mz - zT < ofNat N * d)%Qc).
    { pose proof (floor_lt ((mz - zT) / d)%Qc (div_pos _ _ D Dp)) as F. fold N in F. apply (Qcmult_lt_compat_r _ _ d) in F; [|exact Dp].
      replace ((mz - zT) / d * d)%Qc with (mz - zT)%Qc in F; [exact F|]. field. intros E. rewrite E in Dp. destruct (Qclt_not_eq _ _ Dp). reflexivity. }
    eapply Qcle_lt_trans; [exact L1|]. eapply Qclt_le_trans; [exact L2|]. rewrite !(Qcmult_comm (ofNat N)). apply Qcmult_le_compat_r; [exact Lg|].
    pose proof (floor_lt ((mz - zT) / d)%Qc (div_pos _ _ D Dp)) as F. fold N in F. apply Qclt_le_weak. eapply Qclt_trans; [apply (div_pos _ _ D Dp)|exact F]. }
  split; [|split].
  { intros i j l Hi' Hj' Hl. apply Bd; auto. eapply Qcle_trans; [exact Ddx|]. apply (proj2 (foldMin_le _ _ _ _ Fx) (l * (ny * R))).
    - destruct m as [|m'] eqn:Em; [lia|]. replace ((nx - (R + 0)) * ny) with (m' * (ny * R) + ny) by (rewrite Ex; replace (S m' * R + 1 - (R + 0)) with (m' * R + 1) by lia; ring).
      rewrite steps0 by nia. apply in_map_iff. exists l. split; [reflexivity|apply in_seq; lia].
    - unfold rd. replace (l * (ny * R) + ny * R) with (S l * R * ny + 0) by ring. replace (l * (ny * R)) with (l * R * ny + 0) by ring. rewrite !grid_nth by nia. reflexivity. }
  { intros i j l Hi' Hj' Hl. apply Bd; auto. eapply Qcle_trans; [exact Ddy|]. apply (proj2 (foldMin_le _ _ _ _ Fy) l); [apply in_seq; lia|].
    unfold rd. replace (S l * R) with ((l + 1) * R) by ring. rewrite (grid_nth0 nx ny xs ys zs ((l + 1) * R)), (grid_nth0 nx ny xs ys zs l) by nia. reflexivity. }
  replace (nx * ny) with (m * (ny * R) + ny) by (rewrite Ex; ring). rewrite steps0 by nia.
  assert (Sy : steps 0 ny R = map (fun k => k * R) (seq 0 (S k))) by (rewrite Ey; apply steps0; lia). rewrite Sy. rewrite !map_map.
  rewrite (rdAll_map _ _ (fun i => P (i * R) 0)).
  2:{ intros i I. apply in_seq in I. replace (i * (ny * R)) with (i * R * ny + 0) by ring. apply grid_nth; nia. }
  cbn [bind]. rewrite (rdAll_map _ _ (fun i => P (i * R) (k * R))).
  2:{ intros i I. apply in_seq in I. replace (ny - 1 + i * (ny * R)) with (i * R * ny + k * R) by (replace (ny - 1) with (k * R) by lia; ring). apply grid_nth; nia. }
  cbn [bind]. rewrite (rdAll_map _ _ (fun j => P 0 (j * R))).
  2:{ intros i I. apply in_seq in I. apply grid_nth0; nia. }
  cbn [bind]. rewrite (rdAll_map _ _ (fun j => P (m * R) (j * R))).
  2:{ intros i I. apply in_seq in I. replace (nx - 1) with (m * R) by lia. apply grid_nth; nia. }
  cbn [bind]. rewrite !rev_map_seq. do 2 f_equal.
  - f_equal. apply map_ext. intros i. f_equal. f_equal. lia.
  - f_equal. apply map_ext. intros i. f_equal. f_equal. lia.
Qed.
End C.
