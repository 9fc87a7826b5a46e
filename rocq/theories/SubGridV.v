(** The sub-grid of the solver: proofs. *)
From Coq Require Import List Arith Bool ZArith QArith Lqa Lia.
From Verif Require Import Util ElSpec LlfSpec ScQuad ScQuadSpec ScQuadV ScQuadW SubGrid SubGridSpec.
Import ListNotations.
Open Scope nat_scope.

Lemma skipn_nth {A} (l : list A) d : forall k, k < length l -> skipn k l = nth k l d :: skipn (S k) l.
Proof. induction l as [|a l IH]; intros [|k] H; cbn [length] in H; try lia; [reflexivity|]. cbn [skipn nth]. apply IH. lia. Qed.

(** ** The closest sub-cell *)
Lemma dist_ok nDis nVes nScs pt scSv sv sc : table nDis nVes nScs pt scSv sv -> sc < nScs -> exists d, distSc nDis nVes pt scSv sv sc = Ok d /\ (d == sumSq sv pt (nth sc scSv []))%Q.
Proof.
  intros (LP & LS & LC & T) H. set (row := nth sc scSv []). assert (IR : In row scSv) by (apply nth_In; lia). destruct (T row IR) as (LR & TV).
  unfold distSc. destruct (for_ok (fun k dx => (dx + sumSq sv pt (skipn k row) == sumSq sv pt row)%Q) 0 nVes (fun ve dx =>
    v <- rd2 scSv sc ve ;;
    for_ 0 nDis (fun di dx => c <- rd2 sv v di ;; p <- rd pt di ;; let diff := (c - p)%Q in Ok (dx + diff * diff)%Q) dx) 0%Q) as (d & E & I); [lia|cbn [skipn]; ring| |].
  - intros k dx Hk I. unfold rd2 at 1. rewrite (rd_ok scSv sc []) by lia. cbn [bind]. fold row. rewrite (rd_ok row k 0) by lia. cbn [bind]. set (v := nth k row 0). assert (Hv : v < length sv) by (apply TV, nth_In; lia).
    set (q := nth v sv []). assert (Lq : length q = nDis) by (apply LS, nth_In; auto).
    rewrite (skipn_nth row 0) in I by lia. change (sumSq sv pt (nth k row 0 :: skipn (S k) row)) with (sq q pt + sumSq sv pt (skipn (S k) row))%Q in I.
    destruct (for_ok (fun j dx' => (dx' + sq (skipn j q) (skipn j pt) == dx + sq q pt)%Q) 0 nDis (fun di dx => c <- rd2 sv v di ;; p <- rd pt di ;; let diff := (c - p)%Q in Ok (dx + diff * diff)%Q) dx) as (dx' & E & J); [lia|reflexivity| |].
    + intros j y Hj J. unfold rd2. rewrite (rd_ok sv v []) by auto. cbn [bind]. fold q. rewrite (rd_ok q j 0%Q) by lia. cbn [bind]. rewrite (rd_ok pt j 0%Q) by lia. cbn [bind]. eexists. split; [reflexivity|].
      rewrite (skipn_nth q 0%Q), (skipn_nth pt 0%Q) in J by lia. unfold sq in J at 1. cbn [combine fold_right fst snd] in J. fold (sq (skipn (S j) q) (skipn (S j) pt)) in J. rewrite <- J. ring.
    + exists dx'. split; [exact E|]. rewrite !skipn_all2 in J by lia. cbn in J. rewrite <- I. lra.
  - exists d. split; [exact E|]. rewrite skipn_all2 in I by lia. cbn in I. lra.
Qed.
Lemma pt_ok lidMax M nDis nVes nScs pt scSv sv : table nDis nVes nScs pt scSv sv -> let dist c := sumSq sv pt (nth c scSv []) in
  exists c, ptSc lidMax M nDis nVes nScs pt scSv sv = Ok c /\
  ((c < nScs /\ (dist c < M)%Q /\ (forall c', c' < nScs -> (dist c <= dist c')%Q) /\ forall c', c' < c -> (dist c < dist c')%Q) \/ (c = lidMax /\ forall c', c' < nScs -> (M <= dist c')%Q)).
Proof.
  intros T dist. unfold ptSc.
  destruct (for_ok (fun k (st : nat * Q) => (fst st < k /\ (snd st == dist (fst st))%Q /\ (snd st < M)%Q /\ (forall c', c' < k -> (snd st <= dist c')%Q) /\ forall c', c' < fst st -> (snd st < dist c')%Q) \/ (st = (lidMax, M) /\ forall c', c' < k -> (M <= dist c')%Q)) 0 nScs
    (fun sc st => dx <- distSc nDis nVes pt scSv sv sc ;; Ok (if negb (Qle_bool (snd st) dx) then (sc, dx) else st)) (lidMax, M)) as (st & E & I); [lia|right; split; [reflexivity|intros; lia]| |].
  - intros k st Hk I. destruct (dist_ok _ _ _ _ _ _ k T ltac:(lia)) as (d & -> & D). cbn [bind]. fold (dist k) in D. eexists. split; [reflexivity|]. destruct (Qle_bool (snd st) d) eqn:L; cbn [negb].
    + apply Qle_bool_iff in L. destruct I as [(A & B & C & F & G)|(A & B)].
      * left. split; [lia|]. split; [exact B|]. split; [exact C|]. split; [|exact G]. intros c' Hc. destruct (Nat.eq_dec c' k) as [->|]; [lra|apply F; lia].
      * right. split; [exact A|]. intros c' Hc. destruct (Nat.eq_dec c' k) as [->|]; [rewrite A in L; cbn [snd] in L; lra|apply B; lia].
    + assert (L' : (d < snd st)%Q) by (destruct (Qlt_le_dec d (snd st)) as [|Q]; auto; apply Qle_bool_iff in Q; congruence). clear L. left. cbn [fst snd]. split; [lia|]. split; [exact D|]. destruct I as [(A & B & C & F & G)|(A & B)].
      * split; [lra|]. split; [|intros c' Hc; specialize (F c' Hc); lra]. intros c' Hc. destruct (Nat.eq_dec c' k) as [->|]; [lra|]. specialize (F c' ltac:(lia)). lra.
      * rewrite A in L'. cbn [snd] in L'. split; [exact L'|]. split; [|intros c' Hc; specialize (B c' Hc); lra]. intros c' Hc. destruct (Nat.eq_dec c' k) as [->|]; [lra|]. specialize (B c' ltac:(lia)). lra.
  - rewrite E. cbn [bind]. exists (fst st). split; [reflexivity|]. destruct I as [(A & B & C & F & G)|(A & B)].
    + left. split; [exact A|]. split; [lra|]. split; intros c' Hc; [specialize (F c' Hc)|specialize (G c' Hc)]; lra.
    + right. rewrite A. auto.
Qed.

(** ** Quads *)
Definition sqIds (n x y : nat) : list nat := [id n x y; id n (x + 1) y; id n (x + 1) (y + 1); id n x (y + 1)].
Lemma quad_row deg x y : let n := nSfs deg in x < n -> y < n -> nth_error (quadIds deg) (num n (Sq x y)) = Some (sqIds n x y).
Proof.
  intros n Hx Hy. assert (N := n_pos deg). fold n in N. unfold quadIds. change (2 * deg + 1) with n. rewrite nth_error_map, ves_rows. fold n. assert (B := num_sq n x y N Hx Hy).
  assert (F : forall (l : list verts) m k, k < m -> nth_error (firstn m l) k = nth_error l k) by (induction l as [|a l IH]; intros [|m] [|k] H; try lia; try reflexivity; cbn; apply IH; lia).
  rewrite F by exact B. rewrite row_num by (cbn [okKind]; auto). reflexivity.
Qed.
Lemma quad_len deg : let n := nSfs deg in length (quadIds deg) = n * n.
Proof. intros n. assert (N := n_pos deg). fold n in N. unfold quadIds. change (2 * deg + 1) with n. rewrite map_length, firstn_length, ves_rows, map_length, len_order; fold n; auto. lia. Qed.
Lemma svs_len deg : let n := nSfs deg in length (svs deg) = (n + 1) * (n + 1).
Proof.
  intros n. unfold svs. fold n. assert (G : forall (f : nat -> nat -> Q * Q) m l, length (flat_map (fun b => map (f b) (seq 0 m)) l) = length l * m) by (induction l as [|a l IH]; cbn [flat_map length]; [reflexivity|]; rewrite app_length, map_length, seq_length, IH; lia).
  unfold range. rewrite Nat.sub_0_r. rewrite (G (fun f2 f1 => (0 + inject_Z (Z.of_nat f1) * inc deg, 0 + inject_Z (Z.of_nat f2) * inc deg)%Q)), seq_length. reflexivity.
Qed.
Lemma quad_table deg p : let n := nSfs deg in table 2 4 (n * n) [fst p; snd p] (quadIds deg) (quadPts deg).
Proof.
  intros n. assert (N := n_pos deg). fold n in N. split; [reflexivity|]. split; [intros q H; unfold quadPts in H; apply in_map_iff in H; destruct H as (? & <- & _); reflexivity|]. split; [unfold n; rewrite quad_len; lia|].
  intros row H. apply In_nth_error in H. destruct H as (c & H). assert (Hc : c < n * n) by (unfold n; rewrite <- quad_len; apply nth_error_Some; congruence). destruct (nth_sq n c N Hc) as (x & y & Hx & Hy & Q). apply num_unique in Q. subst c. unfold n in H. rewrite quad_row in H by auto. injection H as <-.
  split; [reflexivity|]. intros v Hv. unfold quadPts. rewrite map_length, svs_len. fold n in Hv |- *. unfold sqIds, id in Hv. cbn [In] in Hv. destruct Hv as [<-|[<-|[<-|[<-|[]]]]]; nia.
Qed.
Lemma pt_at deg x y : let n := nSfs deg in x <= n -> y <= n -> exists a b, nth (id n x y) (quadPts deg) [] = [a; b] /\ (a == frac x n)%Q /\ (b == frac y n)%Q.
Proof.
  intros n Hx Hy. destruct (svs_ok deg x y Hx Hy) as ((a & b) & E & (A & B)). exists a, b. split; [|auto]. unfold quadPts. apply nth_error_nth. rewrite nth_error_map. fold n in E. rewrite E. reflexivity.
Qed.
(** twice the sum of the squared distances to the ends, in each direction *)
Definition ends (n x : nat) (p : Q) : Q := ((frac x n - p) * (frac x n - p) + (frac (x + 1) n - p) * (frac (x + 1) n - p))%Q.
Lemma quad_dist deg x y p : let n := nSfs deg in x < n -> y < n -> (sumSq (quadPts deg) [fst p; snd p] (nth (num n (Sq x y)) (quadIds deg) []) == 2 * ends n x (fst p) + 2 * ends n y (snd p))%Q.
Proof.
  intros n Hx Hy. rewrite (nth_error_nth _ _ _ (quad_row deg x y Hx Hy)). fold n. unfold sumSq, sqIds. cbn [fold_right].
  destruct (pt_at deg x y ltac:(fold n; lia) ltac:(fold n; lia)) as (a0 & b0 & E0 & A0 & B0). destruct (pt_at deg (x + 1) y ltac:(fold n; lia) ltac:(fold n; lia)) as (a1 & b1 & E1 & A1 & B1).
  destruct (pt_at deg (x + 1) (y + 1) ltac:(fold n; lia) ltac:(fold n; lia)) as (a2 & b2 & E2 & A2 & B2). destruct (pt_at deg x (y + 1) ltac:(fold n; lia) ltac:(fold n; lia)) as (a3 & b3 & E3 & A3 & B3).
  fold n in E0, E1, E2, E3, A0, A1, A2, A3, B0, B1, B2, B3. rewrite E0, E1, E2, E3. unfold sq. cbn [combine fold_right fst snd]. unfold ends. rewrite A0, A1, A2, A3, B0, B1, B2, B3. ring.
Qed.
Lemma frac_next n x : 0 < n -> (frac (x + 1) n == frac x n + frac 1 n)%Q.
Proof. intros H. unfold frac, Qdiv. rewrite Nat2Z.inj_add, inject_Z_plus. ring. Qed.
Lemma frac_unit n : 0 < n -> (0 < frac 1 n)%Q.
Proof. intros H. unfold frac. apply Qlt_shift_div_l; [apply Zn_pos; auto|]. rewrite Qmult_0_l. reflexivity. Qed.
Lemma frac_all n : 0 < n -> (frac n n == 1)%Q.
Proof. intros H. assert (Z := Zn_pos n H). unfold frac. field. lra. Qed.
Lemma ends_min n x p : 0 < n -> x < n -> (0 <= p <= 1)%Q -> (forall x', x' < n -> (ends n x p <= ends n x' p)%Q) -> (frac x n <= p <= frac (x + 1) n)%Q.
Proof.
  intros N Hx (P0 & P1) M. assert (U := frac_unit n N). assert (S := frac_next n x N). split.
  - destruct x as [|x]; [unfold frac; cbn [Z.of_nat]; unfold Qdiv; rewrite Qmult_0_l; exact P0|]. specialize (M x ltac:(lia)). assert (S' := frac_next n x N). rewrite Nat.add_1_r in S'. unfold ends in M. rewrite Nat.add_1_r in M. rewrite (Nat.add_1_r x) in M. rewrite Nat.add_1_r in S. rewrite S, S' in M. rewrite S'. set (a := frac x n) in *. set (u := frac 1 n) in *.
    destruct (Qlt_le_dec p (a + u)); [exfalso; nra|auto].
  - destruct (Nat.eq_dec (x + 1) n) as [->|]; [rewrite frac_all by auto; exact P1|]. specialize (M (x + 1) ltac:(lia)). assert (S' := frac_next n (x + 1) N). unfold ends in M. rewrite S', S in M. rewrite S. set (a := frac x n) in *. set (u := frac 1 n) in *.
    destruct (Qlt_le_dec (a + u) p); [exfalso; nra|auto].
Qed.
Lemma ends_bound n x p : 0 < n -> x < n -> (0 <= p <= 1)%Q -> (ends n x p <= 2)%Q.
Proof.
  intros N Hx (P0 & P1). assert (Z : forall k, k <= n -> (0 <= frac k n <= 1)%Q).
  { intros k Hk. split; [|rewrite <- (frac_all n N); apply frac_le; auto]. assert (Q : (frac 0 n == 0)%Q) by (unfold frac; cbn [Z.of_nat]; unfold Qdiv; ring). rewrite <- Q. apply frac_le; auto. lia. }
  destruct (Z x ltac:(lia)), (Z (x + 1) ltac:(lia)). unfold ends. nra.
Qed.
