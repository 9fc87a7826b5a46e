(** C101: the sub-grid of the solver: the closest sub-cell contains the point, the sub-grids of faces are numbered consistently. *)
From Coq Require Import List Arith Bool ZArith QArith Lqa Lia.
From Verif Require Import Util ElSpec LlfSpec ScQuad ScQuadSpec ScQuadV ScQuadW ScLine ScLineSpec SubGrid SubGridSpec SubGridV SubGridW.
Import ListNotations.
Open Scope nat_scope.

(** The first of the sub-cells with the smallest sum of squared distances to its vertices is returned; no sub-cell if none is closer than the largest number. *)
Theorem C101_closest : forall lidMax realMax nDis nVes nScs pt scSv sv, table nDis nVes nScs pt scSv sv -> let dist c := sumSq sv pt (nth c scSv []) in
  exists c, ptSc lidMax realMax nDis nVes nScs pt scSv sv = Ok c /\
  ((c < nScs /\ (dist c < realMax)%Q /\ (forall c', c' < nScs -> (dist c <= dist c')%Q) /\ forall c', c' < c -> (dist c < dist c')%Q) \/ (c = lidMax /\ forall c', c' < nScs -> (realMax <= dist c')%Q)).
Proof. exact pt_ok. Qed.
Print Assumptions C101_closest.
Example C101_closest_ex : table 1 2 3 [1 # 2]%Q [[1; 2]; [0; 1]; [2; 3]] [[0]; [1 # 3]; [2 # 3]; [1]]%Q /\ ptSc 99 1000 1 2 3 [1 # 2]%Q [[1; 2]; [0; 1]; [2; 3]] [[0]; [1 # 3]; [2 # 3]; [1]]%Q = Ok 0 /\
  ptSc 99 1000 1 2 3 [9 # 10]%Q [[1; 2]; [0; 1]; [2; 3]] [[0]; [1 # 3]; [2 # 3]; [1]]%Q = Ok 2 /\ ptSc 99 (1 # 100) 1 2 3 [9 # 10]%Q [[1; 2]; [0; 1]; [2; 3]] [[0]; [1 # 3]; [2 # 3]; [1]]%Q = Ok 99.
Proof.
  split; [|split; [|split]; reflexivity]. split; [reflexivity|]. split; [intros p [<-|[<-|[<-|[<-|[]]]]]; reflexivity|]. split; [cbn; lia|]. intros row [<-|[<-|[<-|[]]]]; (split; [reflexivity|]); intros v H; cbn in H |- *; lia.
Qed.

(** With the generated tables of quads the returned sub-cell contains the point, for every degree and every point of the reference element; a point inside a sub-cell gets this sub-cell. *)
Theorem C101_contains : forall deg lidMax realMax p, let n := 2 * deg + 1 in (0 <= fst p <= 1)%Q -> (0 <= snd p <= 1)%Q -> (8 < realMax)%Q ->
  exists c, ptSc lidMax realMax 2 4 (n * n) [fst p; snd p] (quadIds deg) (quadPts deg) = Ok c /\ c < n * n /\ inClosed deg c p /\ forall c', c' < n * n -> inside deg c' p -> c' = c.
Proof.
  intros deg lidMax M p. cbv zeta. change (2 * deg + 1) with (nSfs deg). set (n := nSfs deg). assert (N := n_pos deg). fold n in N. intros Px Py HM.
  destruct (pt_ok lidMax M _ _ _ _ _ _ (quad_table deg p)) as (c & E & I). fold n in E, I. exists c. split; [exact E|].
  destruct I as [(Hc & _ & F & _)|(_ & F)].
  - split; [exact Hc|]. destruct (nth_sq n c N Hc) as (x & y & Hx & Hy & Q). apply num_unique in Q. subst c.
    assert (D : forall x' y', x' < n -> y' < n -> (ends n x (fst p) + ends n y (snd p) <= ends n x' (fst p) + ends n y' (snd p))%Q).
    { intros x' y' Hx' Hy'. specialize (F (num n (Sq x' y')) (num_sq n x' y' N Hx' Hy')). unfold n in F. rewrite !quad_dist in F by auto. fold n in F. lra. }
    assert (X := ends_min n x (fst p) N Hx Px). assert (Y := ends_min n y (snd p) N Hy Py). specialize (X ltac:(intros x' H; specialize (D x' y H Hy); lra)). specialize (Y ltac:(intros y' H; specialize (D x y' Hx H); lra)).
    split.
    + exists (corner n x y 0), (corner n x y 2). split; [apply vertex_sq; auto; lia|]. split; [apply vertex_sq; auto; lia|]. cbn [corner fst snd]. tauto.
    + intros c' Hc' (a & b & A & B & H1 & H2 & H3 & H4). destruct (nth_sq n c' N Hc') as (x' & y' & Hx' & Hy' & Q). apply num_unique in Q. subst c'.
      assert (A' := vertex_fun _ _ _ _ _ A (vertex_sq deg x' y' 0 Hx' Hy' ltac:(lia))). assert (B' := vertex_fun _ _ _ _ _ B (vertex_sq deg x' y' 2 Hx' Hy' ltac:(lia))). destruct A' as (A1 & A2), B' as (B1 & B2). cbn [corner fst snd] in A1, A2, B1, B2. fold n in A1, A2, B1, B2.
      assert (U : forall i j q, (frac i n < q < frac (i + 1) n)%Q -> (frac j n <= q <= frac (j + 1) n)%Q -> i = j).
      { intros i j q (P1 & P2) (P3 & P4). assert (L1 : ~ j + 1 <= i) by (intros H; apply (frac_le (j + 1) i n N) in H; lra). assert (L2 : ~ i + 1 <= j) by (intros H; apply (frac_le (i + 1) j n N) in H; lra). lia. }
      rewrite (U x' x (fst p)) by (auto; rewrite <- A1, <- B1; auto). rewrite (U y' y (snd p)) by (auto; rewrite <- A2, <- B2; auto). reflexivity.
  - exfalso. specialize (F (num n (Sq 0 0)) (num_sq n 0 0 N N N)). unfold n in F. rewrite quad_dist in F by auto. fold n in F. assert (X := ends_bound n 0 (fst p) N N Px). assert (Y := ends_bound n 0 (snd p) N N Py). lra.
Qed.
Print Assumptions C101_contains.
Example C101_contains_ex : ptSc 99 9 2 4 9 [1 # 2; 1 # 10]%Q (quadIds 1) (quadPts 1) = Ok 2 /\ nth 2 (quadIds 1) [] = [1; 2; 6; 5]. Proof. split; reflexivity. Qed.

(** Every face lists its distinct sub-vertices in the order of their first appearance, then invalid ids; the local ids of a sub-face refer to the vertices of its ghost sub-cell (hexes: the first two exchanged). *)
Theorem C101_faces : forall hex nFas nSfs nFaVes nFaSvs nScs scSv o_l o_r,
  (hex = true -> 2 <= nFaVes) -> length o_l = nFas -> length o_r = nFas -> (forall rows, In rows o_l -> length rows = nSfs /\ forall row, In row rows -> length row = nFaVes) ->
  (forall fa sf, fa < nFas -> sf < nSfs -> exists row, nth_error scSv (nScs + fa * nSfs + sf) = Some row /\ nFaVes <= length row) ->
  (forall fa, fa < nFas -> ~ In inv (faceIds nSfs nFaVes nScs scSv fa) /\ length (firsts (faceIds nSfs nFaVes nScs scSv fa)) <= nFaSvs) ->
  exists l r, faSg hex nFas nSfs nFaVes nFaSvs nScs scSv o_l o_r = Ok (l, r) /\ length l = nFas /\ length r = nFas /\ forall fa, fa < nFas ->
    let ids := firsts (faceIds nSfs nFaVes nScs scSv fa) in
    nth_error r fa = Some (ids ++ repeat inv (nFaSvs - length ids)) /\
    exists rows, nth_error l fa = Some rows /\ length rows = nSfs /\ forall sf, sf < nSfs -> exists row, nth_error rows sf = Some row /\ length row = nFaVes /\
    forall sv, sv < nFaVes -> exists k, nth_error row sv = Some k /\ nth_error ids k = Some (at2 scSv (nScs + fa * nSfs + sf) (exch hex sv)).
Proof. exact faSg_ok. Qed.
Print Assumptions C101_faces.
Example C101_faces_ex : firsts [7; 3; 7; 5; 3]%Z = [7; 3; 5]%Z /\ faSg true 1 2 4 6 0 [[10; 11; 12; 13]; [11; 14; 15; 12]]%Z [[[9; 9; 9; 9]; [9; 9; 9; 9]]] [[]] = Ok ([[[1; 0; 2; 3]; [4; 1; 5; 2]]], [[10; 11; 12; 13; 14; 15]]%Z).
Proof. split; reflexivity. Qed.

(** With the generated tables of quads, of every degree up to 126 (beyond, the ids do not fit), sub-vertex k of a face is the face's point k/n, counter-clockwise, and sub-face sf joins the sub-vertices sf and sf+1. *)
Theorem C101_quads : forall deg o_l o_r, let n := 2 * deg + 1 in deg <= 126 -> length o_l = 4 -> length o_r = 4 -> (forall rows, In rows o_l -> length rows = n /\ forall row, In row rows -> length row = 2) ->
  exists l r, faSg false 4 (nSfsQuad (deg + 1)) 2 (nSvsLine (deg + 1)) (nScsQuad (deg + 1)) (quadShorts deg) o_l o_r = Ok (l, r) /\ forall fa, fa < 4 ->
  (exists ids, nth_error r fa = Some ids /\ length ids = n + 1 /\ forall k, k <= n -> exists v p, nth_error ids k = Some (Z.of_nat v) /\ nth_error (svs deg) v = Some p /\ peq p (facePt fa (frac k n))) /\
  (exists rows, nth_error l fa = Some rows /\ length rows = n /\ forall sf, sf < n -> nth_error rows sf = Some [sf; sf + 1]).
Proof.
  intros deg o_l o_r. cbv zeta. intros HD LL LR W. unfold nSfsQuad, nScsQuad, nSvsLine. replace (2 * (deg + 1 - 1) + 1) with (nSfs deg) by (unfold nSfs; lia). replace (2 * (deg + 1)) with (nSfs deg + 1) by (unfold nSfs; lia). change (2 * deg + 1) with (nSfs deg) in *.
  assert (N := n_pos deg). set (n := nSfs deg) in *. assert (B : (n + 1) * (n + 1) < 256 * 256) by (assert (n + 1 <= 254) by (unfold n, nSfs; lia); assert (M := Nat.mul_le_mono (n + 1) 254 (n + 1) 254); lia).
  set (V := fun fa k => Z.of_nat (faceV n fa k)).
  assert (AT : forall fa sf sv, fa < 4 -> sf < n -> sv < 2 -> at2 (quadShorts deg) (n * n + fa * n + sf) sv = V fa (sf + sv)).
  { intros fa sf sv Hf Hs Hv. unfold at2. unfold n at 1 2 3. rewrite (nth_error_nth _ _ _ (ghost_row deg fa sf Hf Hs)). fold n. destruct sv as [|[|sv]]; [| |lia]; cbn [map nth]; rewrite (toShort_small _ n B) by (apply faceV_lt; lia); unfold V; rewrite ?Nat.add_0_r; reflexivity. }
  assert (FI : forall fa, fa < 4 -> faceIds n 2 (n * n) (quadShorts deg) fa = flat_map (fun sf => [V fa sf; V fa (sf + 1)]) (seq 0 n)).
  { intros fa Hf. unfold faceIds. assert (X : forall l, (forall sf, In sf l -> sf < n) -> flat_map (fun sf => map (at2 (quadShorts deg) (n * n + fa * n + sf)) (seq 0 2)) l = flat_map (fun sf => [V fa sf; V fa (sf + 1)]) l).
    { induction l as [|a l IH]; intros H; [reflexivity|]. cbn [flat_map]. rewrite IH by (intros; apply H; right; auto). f_equal. cbn [seq map]. rewrite !AT by (auto; apply H; left; reflexivity). rewrite Nat.add_0_r. reflexivity. }
    apply X. intros sf H. apply in_seq in H. lia. }
  assert (FF : forall fa, fa < 4 -> firsts (faceIds n 2 (n * n) (quadShorts deg) fa) = map (V fa) (seq 0 (n + 1))).
  { intros fa Hf. rewrite FI by auto. apply firsts_path; auto. intros i j Hi Hj E. unfold V in E. apply Nat2Z.inj in E. apply faceV_inj in E; auto. }
  destruct (C101_faces false 4 n 2 (n + 1) (n * n) (quadShorts deg) o_l o_r) as (l & r & E & _ & _ & P); auto.
  - intros fa sf Hf Hs. eexists. split; [apply ghost_row; auto|]. cbn. lia.
  - intros fa Hf. split; [|rewrite FF, map_length, seq_length by auto; lia]. intros H. apply firsts_in in H. rewrite FF in H by auto. apply in_map_iff in H. destruct H as (k & Q & Hk). apply in_seq in Hk. assert (L := faceV_lt n fa k ltac:(lia)). unfold V, inv in Q. assert (n + 1 <= 254) by (unfold n, nSfs; lia). assert (M := Nat.mul_le_mono (n + 1) 254 (n + 1) 254). lia.
  - exists l, r. split; [exact E|]. intros fa Hf. destruct (P fa Hf) as (P1 & rows & P2 & P3 & P4). cbv zeta in P4. rewrite FF in P1, P4 by auto. rewrite map_length, seq_length, Nat.sub_diag in P1. cbn [repeat] in P1. rewrite app_nil_r in P1. split.
    + eexists. split; [exact P1|]. rewrite map_length, seq_length. split; [reflexivity|]. intros k Hk.
      assert (C : exists x y, x <= n /\ y <= n /\ faceV n fa k = id n x y /\ peq (frac x n, frac y n) (facePt fa (frac k n))).
      { assert (O := one_minus n k N Hk). assert (F0 := frac_0 n). assert (F1 := frac_n n N). destruct fa as [|[|[|fa]]]; cbn [faceV facePt]; [exists k, 0|exists n, k|exists (n - k), n|exists 0, (n - k)]; (split; [lia|split; [lia|split; [reflexivity|split; cbn [fst snd]; auto; reflexivity]]]). }
      destruct C as (x & y & Hx & Hy & C & G). destruct (svs_ok deg x y Hx Hy) as (q & E1 & E2). exists (faceV n fa k), q. split; [rewrite nth_map_seq by lia; reflexivity|]. split; [rewrite C; exact E1|]. exact (peq_trans _ _ _ E2 G).
    + exists rows. split; [exact P2|]. split; [exact P3|]. intros sf Hs. destruct (P4 sf Hs) as (row & R1 & R2 & R3). rewrite R1. f_equal. destruct (R3 0 ltac:(lia)) as (k0 & A0 & B0). destruct (R3 1 ltac:(lia)) as (k1 & A1 & B1). cbn [exch] in B0, B1. rewrite AT in B0, B1 by (auto; lia). rewrite Nat.add_0_r in B0.
      assert (U : forall k i, i <= n -> nth_error (map (V fa) (seq 0 (n + 1))) k = Some (V fa i) -> k = i).
      { intros k i Hi H. assert (Hk : k < n + 1) by (assert (Q : nth_error (map (V fa) (seq 0 (n + 1))) k <> None) by congruence; apply nth_error_Some in Q; rewrite map_length, seq_length in Q; exact Q). rewrite nth_map_seq in H by auto. injection H as H. unfold V in H. apply Nat2Z.inj in H. apply faceV_inj in H; auto; lia. }
      apply U in B0; [|lia]. apply U in B1; [|lia]. subst. destruct row as [|a [|b [|c row]]]; try (cbn in R2; lia). cbn in A0, A1. injection A0 as ->. injection A1 as ->. reflexivity.
Qed.
Print Assumptions C101_quads.
Example C101_quads_ex : faSg false 4 (nSfsQuad 2) 2 (nSvsLine 2) (nScsQuad 2) (quadShorts 1) (repeat (repeat [8; 8] 3) 4) (repeat [] 4) =
  Ok (repeat [[0; 1]; [1; 2]; [2; 3]] 4, [[0; 1; 2; 3]; [3; 7; 11; 15]; [15; 14; 13; 12]; [12; 8; 4; 0]]%Z).
Proof. reflexivity. Qed.

(** Tables of lines, as unsigned shorts: for every positive degree the only sub-vertex of a face is the element's vertex. *)
Theorem C101_lines : forall deg m o_l o_r, let n := 2 * deg + 1 in 0 < deg -> (Z.of_nat n < 65535)%Z -> length o_l = 2 -> length o_r = 2 -> (forall rows, In rows o_l -> length rows = 1 /\ forall row, In row rows -> length row = 1) ->
  exists l r, faSg false 2 1 1 (S m) n (lineShorts deg) o_l o_r = Ok (l, r) /\ forall fa, fa < 2 -> nth_error r fa = Some (Z.of_nat (endVertex n fa) :: repeat inv m) /\ nth_error l fa = Some [[0]].
Proof.
  intros deg m o_l o_r. cbv zeta. intros HD HN LL LR W. set (n := 2 * deg + 1) in *.
  assert (G : forall fa, fa < 2 -> nth_error (lineShorts deg) (n + fa) = Some [Z.of_nat (endVertex n fa); 65535]%Z).
  { intros fa Hf. unfold lineShorts. rewrite nth_error_map. assert (L : length (fst (fst (scSvL deg)) ++ snd (fst (scSvL deg))) = n) by (destruct deg as [|deg]; [lia|]; unfold scSvL; change (S deg =? 0) with false; cbn [fst snd]; rewrite app_length, map_length; unfold zrange; rewrite map_length, seq_length; unfold nScs; cbn [length]; unfold n; lia).
    assert (Q : nth_error (snd (scSvL deg)) fa = Some [Z.of_nat (endVertex n fa); -1]%Z) by (destruct deg as [|deg]; [lia|]; unfold scSvL; change (S deg =? 0) with false; cbn [snd]; destruct fa as [|[|fa]]; [reflexivity|reflexivity|lia]).
    destruct (scSvL deg) as [[i s] r]. cbn [fst snd] in L, Q. unfold rows3. rewrite app_assoc, nth_error_app2 by lia. rewrite L. replace (n + fa - n) with fa by lia. rewrite Q. cbn [option_map map]. do 2 f_equal. apply Z.mod_small. destruct fa; cbn [endVertex]; lia. }
  assert (FI : forall fa, fa < 2 -> faceIds 1 1 n (lineShorts deg) fa = [Z.of_nat (endVertex n fa)]).
  { intros fa Hf. unfold faceIds. cbn [seq flat_map map app]. unfold at2. rewrite Nat.mul_1_r, Nat.add_0_r, (nth_error_nth _ _ _ (G fa Hf)). reflexivity. }
  destruct (C101_faces false 2 1 1 (S m) n (lineShorts deg) o_l o_r) as (l & r & E & _ & _ & P); auto; [discriminate| | |].
  - intros fa sf Hf Hs. replace (n + fa * 1 + sf) with (n + fa) by lia. eexists. split; [apply G; auto|]. cbn. lia.
  - intros fa Hf. rewrite FI by auto. split; [|cbn; lia]. intros [Q|[]]. unfold inv in Q. destruct fa; cbn [endVertex] in Q; lia.
  - exists l, r. split; [exact E|]. intros fa Hf. destruct (P fa Hf) as (P1 & rows & P2 & P3 & P4). rewrite FI in P1, P4 by auto. change (firsts [Z.of_nat (endVertex n fa)]) with [Z.of_nat (endVertex n fa)] in P1, P4. cbn [length app] in P1. replace (S m - 1) with m in P1 by lia. split; [exact P1|]. rewrite P2. f_equal.
    destruct (P4 0 ltac:(lia)) as (row & R1 & R2 & R3). destruct (R3 0 ltac:(lia)) as (k & A & B). destruct rows as [|r0 [|]]; try (cbn in P3; lia). cbn in R1. injection R1 as ->. destruct row as [|a [|]]; try (cbn in R2; lia). cbn in A. injection A as ->. destruct k as [|k]; [reflexivity|]. cbn in B. destruct k; discriminate.
Qed.
Print Assumptions C101_lines.
Example C101_lines_ex : faSg false 2 1 1 2 5 (lineShorts 2) [[[7]]; [[7]]] [[]; []] = Ok ([[[0]]; [[0]]], [[0; 65535]; [5; 65535]]%Z). Proof. reflexivity. Qed.
(** For degree zero the left face has no valid sub-vertex: its ghost sub-cell lists the undefined vertex first. *)
Theorem C101_lines_zero_refuted : forall m, exists l r, faSg false 2 1 1 (S m) 1 (lineShorts 0) [[[0]]; [[0]]] [[]; []] = Ok (l, r) /\ nth_error r 0 = Some (repeat inv (S m)) /\ nth_error r 1 = Some (1%Z :: repeat inv m).
Proof. intros m. eexists. eexists. split; [reflexivity|]. split; reflexivity. Qed.
Print Assumptions C101_lines_zero_refuted.
