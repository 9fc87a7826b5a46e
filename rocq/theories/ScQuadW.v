(** Proofs about the sub-grids of quads: types, vertices, composition with the sub-cell solver. *)
From Coq Require Import List Arith Bool QArith Reals Lia Lra.
From Verif Require Import Util ElSpec Llf LlfSpec ScQuad ScQuadSpec ScQuadV.
Import ListNotations.
Open Scope nat_scope.

(** ** Types *)
Definition kindOf (b : behind) : kind := match b with Square x y => Sq x y | Beyond fa sf => Gh fa sf end.
Lemma look_opp n x y j : j < 4 -> fst (opp n (Sq x y) j) = kindOf (look n x y j).
Proof. intros H. destruct j as [|[|[|[|j]]]]; [| | | |lia]; cbn [opp look]; eqbs; reflexivity. Qed.
Definition tyRow (n : nat) (k : kind) : list nat := match k with Sq x y => map (fun j => typeOf j (look n x y j)) (seq 0 4) | Gh _ _ => [] end.
Lemma range_ends n : 2 <= n -> range 0 n = 0 :: range 1 (n - 1) ++ [n - 1].
Proof. intros H. unfold range. destruct n as [|[|n]]; try lia. replace (S (S n) - 0) with (S (S n)) by lia. replace (S (S n) - 1 - 1) with n by lia. change (seq 0 (S (S n))) with (0 :: seq 1 (S n)). rewrite seq_S. reflexivity. Qed.
Lemma range_last n : 2 <= n -> range 1 n = range 1 (n - 1) ++ [n - 1].
Proof. intros H. unfold range. replace (n - 1) with (S (n - 1 - 1)) at 1 by lia. rewrite seq_S. repeat apply f_equal. apply (f_equal2 cons); [lia|reflexivity]. Qed.
Lemma down_last n : 2 <= n -> down (n - 1) 0 = down (n - 1) 1 ++ [0].
Proof. intros H. unfold down. replace (n - 1 - 0) with (S (n - 1 - 1)) by lia. cbn [seq rev]. reflexivity. Qed.
Lemma map_const {A B} (f : A -> B) l l' x : length l = length l' -> (forall a, In a l -> f a = x) -> map f l = map (fun _ : nat => x) l'.
Proof. revert l'. induction l as [|a l IH]; intros [|b l'] L H; cbn in *; try lia; auto. f_equal; [apply H; auto|apply IH; auto]. Qed.
Lemma repeat_map {A} (x : A) (l : list kind) f : (forall a, In a l -> f a = x) -> map f l = repeat x (length l).
Proof. induction l as [|a l IH]; intros H; cbn; auto. f_equal; [apply H; now left|apply IH; intros; apply H; now right]. Qed.
Ltac ty := unfold tyRow; cbn [map seq look typeOf]; repeat match goal with |- context[?a =? ?b] => destruct (Nat.eqb_spec a b); try lia end; reflexivity.
Lemma types_ok deg : let n := nSfs deg in scTySf deg = (map (tyRow n) (inner_ n), map (tyRow n) (send_ n)).
Proof.
  cbv zeta. unfold scTySf. destruct (Nat.eqb_spec deg 0) as [->|D]; [reflexivity|]. set (n := nSfs deg). assert (N : 3 <= n) by (unfold n, nSfs; lia). f_equal.
  - rewrite (repeat_map [8; 9; 10; 11]).
    + f_equal. rewrite len_inner. clearbody n. destruct n as [|[|n']]; [lia|lia|]. nia.
    + intros k Hk. apply in_inner in Hk. destruct Hk as (x & y & -> & Hx & Hy). ty.
  - unfold send_. rewrite (range_ends n), (range_last n), (down_last n) by lia. repeat (rewrite ?map_app, ?map_map; cbn [map]). cbn [app]. rewrite <- ?app_assoc. cbn [app].
    assert (L : length (range 1 (n - 1)) = n - 2) by (rewrite len_range; lia). assert (L' : length (down (n - 1) 1) = n - 2) by (rewrite len_down; lia).
    rewrite (map_const (fun x => tyRow n (Sq x 0)) (range 1 (n - 1)) (range 1 (n - 1)) [0; 9; 10; 11]) by (auto; intros a Ha; apply in_range in Ha; ty).
    rewrite (map_const (fun x => tyRow n (Sq (n - 1) x)) (range 1 (n - 1)) (range 1 (n - 1)) [8; 1; 10; 11]) by (auto; intros a Ha; apply in_range in Ha; ty).
    rewrite (map_const (fun x => tyRow n (Sq x (n - 1))) (down (n - 1) 1) (range 1 (n - 1)) [8; 9; 2; 11]) by (try congruence; intros a Ha; apply in_down in Ha; ty).
    rewrite (map_const (fun x => tyRow n (Sq 0 x)) (down (n - 1) 1) (range 1 (n - 1)) [8; 9; 10; 3]) by (try congruence; intros a Ha; apply in_down in Ha; ty).
    apply (f_equal2 cons); [symmetry; ty|]. apply f_equal. apply (f_equal2 cons); [symmetry; ty|]. apply f_equal. apply (f_equal2 cons); [symmetry; ty|]. apply f_equal. apply (f_equal2 cons); [symmetry; ty|]. reflexivity.
Qed.

(** ** Numbers of squares *)
Definition numS (n x y : nat) : nat := num n (Sq x y).
Lemma nth_sq n c : 0 < n -> c < n * n -> exists x y, x < n /\ y < n /\ nth_error (order n) c = Some (Sq x y).
Proof.
  intros N H. destruct (nth_error (order n) c) as [k|] eqn:Q; [|apply nth_error_None in Q; rewrite len_order in Q by auto; lia]. assert (K : okKind n k) by (apply in_order; apply nth_error_In in Q; auto). destruct k as [x y|fa sf]; cbn in K; [exists x, y; tauto|].
  apply num_unique in Q. rewrite num_gh in Q by tauto. lia.
Qed.
Lemma numS_ok n : 0 < n -> numbering n (numS n).
Proof.
  intros N. unfold numbering, numS. split; [|split; [|split]].
  - intros x y Hx Hy. apply num_sq; auto.
  - intros x y x' y' Hx Hy Hx' Hy' H. apply num_inj in H; cbn; auto. injection H; auto.
  - intros c H. destruct (nth_sq n c N H) as (x & y & Hx & Hy & Q). exists x, y. repeat split; auto. symmetry. apply num_unique; auto.
  - intros x y Hx Hy. split; intros H.
    + assert (Q := num_nth n (Sq x y)). cbn in Q. specialize (Q ltac:(auto)). unfold order in Q. rewrite nth_error_app1 in Q by (rewrite len_inner; auto). apply nth_error_In, in_inner in Q. destruct Q as (a & b & E & Hb). injection E as -> ->. lia.
    + assert (I : In (Sq x y) (inner_ n)) by (apply in_inner; exists x, y; repeat split; lia). rewrite <- len_inner. replace (num n (Sq x y)) with (idx (Sq x y) (inner_ n)); [apply idx_lt; auto|]. apply num_unique. unfold order. rewrite nth_error_app1 by (apply idx_lt; auto). apply idx_nth; auto.
Qed.

(** ** Vertices *)
Lemma nth_lattice {A} (f : nat -> nat -> A) m : forall k a y x, x < m -> y < k -> nth_error (flat_map (fun b => map (f b) (seq 0 m)) (seq a k)) (y * m + x) = Some (f (a + y) x).
Proof.
  induction k as [|k IH]; intros a y x Hx Hy; [lia|]. cbn [seq flat_map]. destruct y as [|y].
  - rewrite nth_error_app1 by (rewrite map_length, seq_length; lia). cbn [Nat.mul Nat.add]. rewrite nth_map_seq by auto. do 2 f_equal. lia.
  - rewrite nth_error_app2 by (rewrite map_length, seq_length; nia). rewrite map_length, seq_length. replace (S y * m + x - m) with (y * m + x) by nia. rewrite IH by lia. do 2 f_equal. lia.
Qed.
Lemma inc_frac deg a : (0 + inject_Z (Z.of_nat a) * inc deg == frac a (nSfs deg))%Q.
Proof. unfold inc, frac. unfold Qdiv. ring. Qed.
Lemma svs_ok deg x y : let n := nSfs deg in x <= n -> y <= n -> exists p, nth_error (svs deg) (id n x y) = Some p /\ peq p (frac x n, frac y n).
Proof.
  cbv zeta. intros Hx Hy. unfold svs, range. rewrite !Nat.sub_0_r. unfold id. rewrite (nth_lattice (fun f2 f1 => (0 + inject_Z (Z.of_nat f1) * inc deg, 0 + inject_Z (Z.of_nat f2) * inc deg)%Q)) by lia. eexists. split; [reflexivity|]. split; cbn [fst snd Nat.add]; apply inc_frac.
Qed.
Lemma ves_rows deg : rows3 (scSv deg) = map (ves (nSfs deg)) (order (nSfs deg)).
Proof. unfold scSv, rows3. rewrite in_ves, send_ves, recv_ves. unfold order. rewrite !map_app. reflexivity. Qed.
Lemma row_num {A} n (f : kind -> A) k : okKind n k -> nth_error (map f (order n)) (num n k) = Some (f k).
Proof. intros K. rewrite nth_error_map, num_nth by auto. reflexivity. Qed.
Lemma peq_sym p q : peq p q -> peq q p. Proof. intros (A & B). split; symmetry; auto. Qed.
Lemma peq_trans p q r : peq p q -> peq q r -> peq p r. Proof. intros (A & B) (C & D). split; etransitivity; eauto. Qed.
Lemma vertex_at deg k i x y p : let n := nSfs deg in okKind n k -> nth_error (ves n k) i = Some (Some (id n x y)) -> x <= n -> y <= n -> peq (frac x n, frac y n) p -> vertexOf deg (num n k) i p.
Proof.
  cbv zeta. intros K E Hx Hy P. destruct (svs_ok deg x y Hx Hy) as (p' & E' & P'). exists (ves (nSfs deg) k), (id (nSfs deg) x y), p'. rewrite ves_rows, row_num by auto. repeat split; auto; apply (peq_trans _ _ _ P' P).
Qed.
Lemma vertex_sq deg x y i : let n := nSfs deg in x < n -> y < n -> i < 4 -> vertexOf deg (num n (Sq x y)) i (corner n x y i).
Proof.
  cbv zeta. intros Hx Hy Hi. destruct i as [|[|[|[|i]]]]; [| | | |lia]; (eapply vertex_at; [cbn; auto|reflexivity|lia|lia|split; reflexivity]).
Qed.
Lemma vertex_fun deg c i p q : vertexOf deg c i p -> vertexOf deg c i q -> peq p q.
Proof. intros (r & v & p' & A & B & C & D) (r' & v' & q' & A' & B' & C' & D'). assert (r = r') by congruence. subst. assert (v = v') by congruence. subst. assert (p' = q') by congruence. subst. eapply peq_trans; [apply peq_sym; eauto|auto]. Qed.

Lemma n_pos deg : 0 < nSfs deg. Proof. unfold nSfs. lia. Qed.
Lemma Zn_pos n : 0 < n -> (0 < inject_Z (Z.of_nat n))%Q. Proof. intros H. change 0%Q with (inject_Z 0). rewrite <- Zlt_Qlt. lia. Qed.
Lemma frac_le a b n : 0 < n -> (frac a n <= frac b n)%Q <-> a <= b.
Proof.
  intros N. unfold frac. assert (P := Zn_pos n N). split; intros H.
  - apply (Qmult_le_compat_r _ _ (inject_Z (Z.of_nat n))) in H; [|apply Qlt_le_weak; auto]. rewrite !(Qmult_comm (_ / _)), !Qmult_div_r in H by (intros Q; rewrite Q in P; apply Qlt_irrefl in P; auto). rewrite <- Zle_Qle in H. lia.
  - unfold Qdiv. apply Qmult_le_compat_r; [rewrite <- Zle_Qle; lia|apply Qinv_le_0_compat, Qlt_le_weak; auto].
Qed.
Lemma frac_mul a n : 0 < n -> (frac a n * inject_Z (Z.of_nat n) == inject_Z (Z.of_nat a))%Q.
Proof. intros N. unfold frac. rewrite Qmult_comm. apply Qmult_div_r. intros Q. assert (P := Zn_pos n N). rewrite Q in P. apply Qlt_irrefl in P; auto. Qed.
Lemma frac_cell n (p : Q) a : 0 < n -> (frac a n <= p < frac (a + 1) n)%Q <-> (inject_Z (Z.of_nat a) <= p * inject_Z (Z.of_nat n) < inject_Z (Z.of_nat (a + 1)))%Q.
Proof.
  intros N. assert (P := Zn_pos n N). rewrite <- (frac_mul a n N), <- (frac_mul (a + 1) n N). rewrite Qmult_lt_r, Qmult_le_r by auto. reflexivity.
Qed.
Lemma cell_exists n (p : Q) : 0 < n -> (0 <= p < 1)%Q -> exists a, a < n /\ (frac a n <= p < frac (a + 1) n)%Q.
Proof.
  intros N (P0 & P1). assert (P := Zn_pos n N). set (t := (p * inject_Z (Z.of_nat n))%Q). assert (T0 : (0 <= t)%Q) by (apply Qmult_le_0_compat; auto; apply Qlt_le_weak; auto).
  assert (T1 : (t < inject_Z (Z.of_nat n))%Q) by (unfold t; rewrite <- (Qmult_1_l (inject_Z (Z.of_nat n))) at 2; apply Qmult_lt_r; auto).
  assert (F0 : (0 <= Qround.Qfloor t)%Z) by (change 0%Z with (Qround.Qfloor 0); apply Qround.Qfloor_resp_le; auto). assert (F1 := Qround.Qfloor_le t). assert (F2 := Qround.Qlt_floor t).
  exists (Z.to_nat (Qround.Qfloor t)). split.
  - assert (X : (inject_Z (Qround.Qfloor t) < inject_Z (Z.of_nat n))%Q) by (eapply Qle_lt_trans; eauto). rewrite <- Zlt_Qlt in X. lia.
  - apply frac_cell; auto. fold t. replace (Z.of_nat (Z.to_nat (Qround.Qfloor t) + 1)) with (Qround.Qfloor t + 1)%Z by lia. rewrite Z2Nat.id by auto. auto.
Qed.
Lemma cell_unique n (p : Q) a b : 0 < n -> (frac a n <= p < frac (a + 1) n)%Q -> (frac b n <= p < frac (b + 1) n)%Q -> a = b.
Proof.
  intros N A B. apply frac_cell in A, B; auto. destruct A as (A1 & A2), B as (B1 & B2). assert (X := Qle_lt_trans _ _ _ A1 B2). assert (Y := Qle_lt_trans _ _ _ B1 A2). rewrite <- Zlt_Qlt in X, Y. lia.
Qed.
Lemma in_square deg x y p : let n := nSfs deg in x < n -> y < n -> (inCell deg (num n (Sq x y)) p <-> ((frac x n <= fst p < frac (x + 1) n) /\ (frac y n <= snd p < frac (y + 1) n))%Q).
Proof.
  cbv zeta. intros Hx Hy. split.
  - intros (a & b & A & B & H1 & H2 & H3 & H4). assert (A' := vertex_fun _ _ _ _ _ A (vertex_sq deg x y 0 Hx Hy ltac:(lia))). assert (B' := vertex_fun _ _ _ _ _ B (vertex_sq deg x y 2 Hx Hy ltac:(lia))). destruct A' as (A1 & A2), B' as (B1 & B2). cbn [corner fst snd] in *. rewrite <- A1, <- A2, <- B1, <- B2. auto.
  - intros ((H1 & H2) & H3 & H4). exists (corner (nSfs deg) x y 0), (corner (nSfs deg) x y 2). split; [apply vertex_sq; auto; lia|]. split; [apply vertex_sq; auto; lia|]. cbn [corner fst snd]. auto.
Qed.

(** ** Faces *)
Lemma one_minus n a : 0 < n -> a <= n -> (frac (n - a) n == 1 - frac a n)%Q.
Proof.
  intros N H. assert (P := Zn_pos n N). assert (NZ : ~ (inject_Z (Z.of_nat n) == 0)%Q) by (intros Q; rewrite Q in P; apply Qlt_irrefl in P; auto). unfold frac. replace (Z.of_nat (n - a)) with (Z.of_nat n + - Z.of_nat a)%Z by lia. rewrite inject_Z_plus, inject_Z_opp. field. auto.
Qed.
Lemma frac_0 n : (frac 0 n == 0)%Q. Proof. unfold frac. reflexivity. Qed.
Lemma frac_n n : 0 < n -> (frac n n == 1)%Q.
Proof. intros N. assert (P := Zn_pos n N). unfold frac. field. intros Q. rewrite Q in P. apply Qlt_irrefl in P; auto. Qed.
Definition sqAt (n fa sf : nat) : nat * nat := match fa with 0 => (sf, 0) | 1 => (n - 1, sf) | 2 => (n - 1 - sf, n - 1) | _ => (0, n - 1 - sf) end.
Lemma ghost_vertices deg fa sf : let n := nSfs deg in fa < 4 -> sf < n -> vertexOf deg (n * n + n * fa + sf) 0 (facePt fa (frac sf n)) /\ vertexOf deg (n * n + n * fa + sf) 1 (facePt fa (frac (sf + 1) n)).
Proof.
  cbv zeta. intros Hf Hs. assert (N := n_pos deg). rewrite <- num_gh by auto. set (n := nSfs deg) in *.
  assert (E1 := one_minus n sf N ltac:(lia)). assert (E2 := one_minus n (sf + 1) N ltac:(lia)). replace (n - (sf + 1)) with (n - 1 - sf) in E2 by lia. assert (F0 := frac_0 n). assert (F1 := frac_n n N).
  destruct fa as [|[|[|[|fa]]]]; [| | | |lia]; (split; (eapply vertex_at; [cbn; split; [lia|exact Hs]|reflexivity|fold n; lia|fold n; lia|fold n; split; cbn [fst snd facePt]; auto; try reflexivity])).
Qed.
Lemma square_at deg fa sf : let n := nSfs deg in fa < 4 -> sf < n -> let c := num n (Sq (fst (sqAt n fa sf)) (snd (sqAt n fa sf))) in
  vertexOf deg c fa (facePt fa (frac sf n)) /\ vertexOf deg c ((fa + 1) mod 4) (facePt fa (frac (sf + 1) n)).
Proof.
  cbv zeta. intros Hf Hs. assert (N := n_pos deg). set (n := nSfs deg) in *.
  assert (E1 := one_minus n sf N ltac:(lia)). assert (E2 := one_minus n (sf + 1) N ltac:(lia)). replace (n - (sf + 1)) with (n - 1 - sf) in E2 by lia. replace (n - sf) with (n - 1 - sf + 1) in E1 by lia. assert (F0 := frac_0 n). assert (F1 := frac_n n N). replace n with (n - 1 + 1) in F1 at 1 by lia.
  destruct fa as [|[|[|[|fa]]]]; [| | | |lia]; cbn [sqAt fst snd Nat.add Nat.modulo Nat.divmod Nat.sub]; (split; (eapply vertex_at; [cbn [okKind]; fold n; lia|reflexivity|fold n; lia|fold n; lia|fold n; split; cbn [fst snd facePt]; auto; try reflexivity])).
Qed.

(** ** The grid of the sub-cell solver *)
Definition sfOf (n : nat) (x y j : nat) : subface := let b := look n x y j in {| sAd := numOf n (numS n) b; sTy := match b with Square _ _ => InnerLeft j | Beyond fa _ => Outer fa end |}.
Definition cellOf (n : nat) (k : kind) : list subface := match k with Sq x y => map (sfOf n x y) (seq 0 4) | Gh _ _ => [] end.
Definition gridOf (n : nat) : list (list subface) := map (cellOf n) (inner_ n ++ send_ n).
Lemma squares_in n k : In k (inner_ n ++ send_ n) -> exists x y, k = Sq x y /\ x < n /\ y < n.
Proof. intros H. apply in_app_or in H. destruct H as [H|H]; [apply in_inner in H|apply in_send in H]; destruct H as (x & y & -> & H); exists x, y; repeat split; lia. Qed.
Lemma look_fa n x y j fa sf : j < 4 -> look n x y j = Beyond fa sf -> fa = j.
Proof. intros H. destruct j as [|[|[|[|j]]]]; [| | | |lia]; cbn [look]; eqbs; intros E; congruence. Qed.
Lemma look_ok n x y j : x < n -> y < n -> j < 4 -> okKind n (kindOf (look n x y j)).
Proof. intros Hx Hy H. destruct j as [|[|[|[|j]]]]; [| | | |lia]; cbn [look]; eqbs; cbn; lia. Qed.
Lemma numOf_num n b : 0 < n -> okKind n (kindOf b) -> numOf n (numS n) b = num n (kindOf b).
Proof. intros N K. destruct b; cbn in *; [reflexivity|]. rewrite num_gh by tauto. reflexivity. Qed.
Lemma grid_ad n : 0 < n -> map (map Some) (adTable (gridOf n)) = map (row n) (inner_ n) ++ map (row n) (send_ n).
Proof.
  intros N. unfold adTable, gridOf. rewrite <- map_app, !map_map. apply map_ext_in. intros k Hk. apply squares_in in Hk. destruct Hk as (x & y & -> & Hx & Hy). unfold cellOf, row. rewrite !map_map. apply map_ext_in. intros j Hj. apply in_seq in Hj.
  rewrite look_opp by lia. unfold sfOf. cbn [sAd]. rewrite numOf_num by (auto; apply look_ok; auto; lia). destruct j as [|[|[|[|j]]]]; try lia; reflexivity.
Qed.
Lemma grid_ty n e : nFaces e = 4 -> tyTable e (gridOf n) = map (tyRow n) (inner_ n) ++ map (tyRow n) (send_ n).
Proof.
  intros F. unfold tyTable, gridOf. rewrite <- map_app, !map_map. apply map_ext_in. intros k Hk. apply squares_in in Hk. destruct Hk as (x & y & -> & Hx & Hy). unfold cellOf, tyRow. rewrite !map_map. apply map_ext_in. intros j Hj. apply in_seq in Hj.
  unfold sfOf. cbn [sTy]. destruct (look n x y j); cbn [code typeOf]; rewrite ?F; reflexivity.
Qed.
Lemma grid_wf n e : 0 < n -> nFaces e = 4 -> wfGrid e (n * n + 4 * n) (gridOf n).
Proof.
  intros N F sc H. unfold gridOf in H. apply in_map_iff in H. destruct H as (k & <- & Hk). apply squares_in in Hk. destruct Hk as (x & y & -> & Hx & Hy). cbn [cellOf]. rewrite map_length, seq_length. split; [auto|]. intros s Hs. apply in_map_iff in Hs. destruct Hs as (j & <- & Hj). apply in_seq in Hj.
  unfold sfOf. cbn [sAd sTy]. split.
  - rewrite numOf_num by (auto; apply look_ok; auto; lia). apply num_lt; auto. apply look_ok; auto; lia.
  - destruct (look n x y j) as [a b|fa sf] eqn:L; cbn [validType]; [unfold nPlanes; fold (nFaces e); lia|]. apply look_fa in L; lia.
Qed.
Lemma len_grid n : 0 < n -> length (gridOf n) = n * n. Proof. intros N. unfold gridOf. rewrite map_length. apply len_squares; auto. Qed.
Lemma sfAt_grid n p s : 0 < n -> sfAt (gridOf n) p = Some s -> exists x y, x < n /\ y < n /\ fst p = numS n x y /\ snd p < 4 /\ s = sfOf n x y (snd p).
Proof.
  intros N. unfold sfAt, gridOf. rewrite nth_error_map. destruct (nth_error (inner_ n ++ send_ n) (fst p)) as [k|] eqn:Q; cbn; [|discriminate]. assert (K := squares_in n k (nth_error_In _ _ Q)). destruct K as (x & y & -> & Hx & Hy). intros E.
  assert (L : snd p < 4) by (assert (X : nth_error (cellOf n (Sq x y)) (snd p) <> None) by congruence; apply nth_error_Some in X; exact X).
  exists x, y. repeat split; auto.
  - apply num_unique. unfold order. rewrite app_assoc, nth_error_app1; auto. apply nth_error_Some. congruence.
  - cbn [cellOf] in E. rewrite nth_map_seq in E by auto. congruence.
Qed.
Lemma grid_sfAt n x y j : 0 < n -> x < n -> y < n -> j < 4 -> sfAt (gridOf n) (numS n x y, j) = Some (sfOf n x y j).
Proof.
  intros N Hx Hy Hj. unfold sfAt, gridOf. cbn [fst snd]. rewrite nth_error_map. assert (Q := num_nth n (Sq x y) ltac:(cbn; auto)). fold (numS n x y) in Q. unfold order in Q. rewrite app_assoc, nth_error_app1 in Q by (rewrite len_squares by auto; apply num_sq; auto). rewrite Q. cbn [option_map cellOf]. apply nth_map_seq; auto.
Qed.
Lemma normals e j : parallelogram e -> j < 4 -> fAr (plane e ((j + 2) mod 4)) = fAr (plane e j) /\ forall i, i < 2 -> sfNormal e (InnerLeft ((j + 2) mod 4)) i = (- sfNormal e (InnerLeft j) i)%R.
Proof.
  intros (F & H) Hj. assert (IL : forall fa i, fa < 4 -> sfNormal e (InnerLeft fa) i = sfNormal e (Outer fa) i).
  { intros fa i Hf. cbn [sfNormal]. unfold planeDir. rewrite F. destruct (Nat.ltb_spec fa 4); [reflexivity|lia]. }
  destruct (H 0 ltac:(lia)) as (A0 & N0). destruct (H 1 ltac:(lia)) as (A1 & N1).
  destruct j as [|[|[|[|j]]]]; [| | | |lia]; cbn [Nat.add Nat.modulo Nat.divmod Nat.sub fst snd] in *; (split; [auto|]); intros i Hi; rewrite !IL by lia; rewrite ?N0, ?N1 by auto; ring.
Qed.
Lemma look_back n x y j a b : x < n -> y < n -> j < 4 -> look n x y j = Square a b -> a < n /\ b < n /\ look n a b ((j + 2) mod 4) = Square x y.
Proof.
  intros Hx Hy Hj. destruct j as [|[|[|[|j]]]]; [| | | |lia]; cbn [look]; eqbs; intros E; try discriminate; injection E as <- <-; cbn [Nat.add Nat.modulo Nat.divmod Nat.sub fst snd look]; eqbs; try lia; (split; [lia|]); (split; [lia|]); f_equal; lia.
Qed.
Lemma grid_paired n e : 0 < n -> parallelogram e -> paired 2 n e (gridOf n).
Proof.
  intros N P. exists (fun p => match sfAt (gridOf n) p with Some s => if inner s then (sAd s, (snd p + 2) mod 4) else p | None => p end). intros p s E I. rewrite E, I.
  destruct (sfAt_grid n p s N E) as (x & y & Hx & Hy & Hp & Hj & ->). set (j := snd p) in *. assert (Hj2 : (j + 2) mod 4 < 4) by (apply Nat.mod_upper_bound; lia).
  unfold sfOf in I. cbn [sTy] in I. destruct (look n x y j) as [a b|fa sf] eqn:L; [|discriminate]. destruct (look_back n x y j a b Hx Hy Hj L) as (Ha & Hb & LB).
  assert (S1 : sAd (sfOf n x y j) = numS n a b) by (unfold sfOf; rewrite L; reflexivity). rewrite S1.
  assert (T1 : sTy (sfOf n x y j) = InnerLeft j) by (unfold sfOf; rewrite L; reflexivity). assert (S2 : sAd (sfOf n a b ((j + 2) mod 4)) = numS n x y) by (unfold sfOf; rewrite LB; reflexivity). assert (T2 : sTy (sfOf n a b ((j + 2) mod 4)) = InnerLeft ((j + 2) mod 4)) by (unfold sfOf; rewrite LB; reflexivity).
  rewrite (grid_sfAt n a b _ N Ha Hb Hj2). assert (I2 : inner (sfOf n a b ((j + 2) mod 4)) = true) by (unfold inner; rewrite T2; reflexivity). rewrite I2. split.
  - rewrite S2. cbn [snd]. rewrite (surjective_pairing p), Hp. fold j. f_equal. clear - Hj. destruct j as [|[|[|[|j]]]]; [| | | |lia]; reflexivity.
  - eexists. split; [reflexivity|]. split; [auto|]. split; [reflexivity|]. rewrite T1, T2. destruct (normals e j P Hj) as (A & B). split; [unfold sfArea; cbn [sfPlane]; rewrite A; reflexivity|exact B].
Qed.
Lemma grid_closed n e sc : parallelogram e -> In sc (gridOf n) -> closed 2 n e sc.
Proof.
  intros P H i Hi. unfold gridOf in H. apply in_map_iff in H. destruct H as (k & <- & Hk). apply squares_in in Hk. destruct Hk as (x & y & -> & Hx & Hy). cbn [cellOf]. rewrite map_map.
  assert (IL : forall fa i, fa < 4 -> sfNormal e (InnerLeft fa) i = sfNormal e (Outer fa) i).
  { intros fa i' Hf. cbn [sfNormal]. unfold planeDir. destruct P as (F & _). rewrite F. destruct (Nat.ltb_spec fa 4); [reflexivity|lia]. }
  rewrite (map_ext_in _ (fun j => (fAr (plane e j) / INR n * sfNormal e (Outer j) i)%R)).
  - destruct P as (F & P). destruct (P 0 ltac:(lia)) as (A0 & N0). destruct (P 1 ltac:(lia)) as (A1 & N1). cbn [Nat.add] in *. cbn [map seq rsum fold_right]. rewrite A0, A1, N0, N1 by auto. ring.
  - intros j Hj. apply in_seq in Hj. unfold sfOf, sfArea. cbn [sTy]. destruct (look n x y j) as [a b|fa sf] eqn:L; cbn [sfPlane]; [rewrite IL by lia; reflexivity|]. apply look_fa in L; [subst; reflexivity|lia].
Qed.
