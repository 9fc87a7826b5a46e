(** The sub-grid of the solver: the sub-grids of faces, proofs. *)
From Coq Require Import List Arith Bool ZArith QArith Lia.
From Verif Require Import Util ElSpec LlfSpec ScQuad ScQuadSpec ScQuadV ScQuadW SubGrid SubGridSpec.
Import ListNotations.
Open Scope nat_scope.

Lemma firsts_snoc l x : firsts (l ++ [x]) = if in_dec Z.eq_dec x (firsts l) then firsts l else firsts l ++ [x].
Proof.
  unfold firsts. rewrite rev_app_distr. cbn [rev app nodup]. destruct (in_dec Z.eq_dec x (rev l)) as [H|H]; destruct (in_dec Z.eq_dec x (rev (nodup Z.eq_dec (rev l)))) as [H'|H']; auto; exfalso; rewrite <- in_rev, nodup_In in H'; auto.
Qed.
Lemma firsts_in l x : In x (firsts l) <-> In x l. Proof. unfold firsts. rewrite <- in_rev, nodup_In, <- in_rev. reflexivity. Qed.
Lemma firsts_nodup l : NoDup (firsts l). Proof. unfold firsts. apply NoDup_rev, NoDup_nodup. Qed.
Lemma firsts_prefix l m : exists t, firsts (l ++ m) = firsts l ++ t.
Proof.
  revert l. induction m as [|x m IH]; intros l; [exists []; rewrite !app_nil_r; reflexivity|]. replace (l ++ x :: m) with ((l ++ [x]) ++ m) by (rewrite <- app_assoc; reflexivity). destruct (IH (l ++ [x])) as (t & ->). rewrite firsts_snoc. destruct (in_dec Z.eq_dec x (firsts l)); [exists t; auto|]. exists ([x] ++ t). rewrite <- app_assoc. reflexivity.
Qed.

Lemma upd_mid {A} (P : list A) x y Q : upd (P ++ x :: Q) (length P) y = P ++ y :: Q.
Proof. induction P as [|a P IH]; cbn; [reflexivity|]. rewrite IH. reflexivity. Qed.
Lemma nth_mid {A} (P : list A) x Q : nth_error (P ++ x :: Q) (length P) = Some x.
Proof. rewrite nth_error_app2 by lia. rewrite Nat.sub_diag. reflexivity. Qed.
Definition body (id : Z) (cu : nat) (st : list Z * option nat) : res (list Z * option nat * bool) :=
  x <- rd (fst st) cu ;;
  if (x =? id)%Z then Ok ((fst st, Some cu), true)
  else if (x =? inv)%Z then r' <- wr (fst st) cu id ;; Ok ((r', Some cu), true)
  else Ok (st, false).
Lemma scan_in id m : forall Q P, ~ In id P -> ~ In inv Q -> In id Q -> exists k, forb_n (length Q + m) (length P) (body id) (P ++ Q ++ repeat inv m, None) = Ok (P ++ Q ++ repeat inv m, Some k) /\ nth_error (P ++ Q) k = Some id.
Proof.
  induction Q as [|a Q IH]; intros P HP HQ HI; [destruct HI|]. cbn [length Nat.add forb_n]. unfold body at 1. cbn [fst app]. rewrite (rd_some _ _ a) by apply nth_mid. cbn [bind]. destruct (Z.eqb_spec a id) as [->|N].
  - cbn [bind]. exists (length P). split; [reflexivity|]. apply nth_mid.
  - destruct (Z.eqb_spec a inv) as [->|N']; [exfalso; apply HQ; left; auto|]. cbn [bind]. destruct (IH (P ++ [a])) as (k & E & K); [intros H; apply in_app_or in H; destruct H as [H|[H|[]]]; auto|intros H; apply HQ; right; auto|destruct HI; [congruence|auto]|].
    rewrite app_length in E. cbn [length] in E. rewrite Nat.add_1_r in E. rewrite <- !app_assoc in E. cbn [app] in E. exists k. split; [exact E|]. rewrite <- app_assoc in K. exact K.
Qed.
Lemma scan_out id m : id <> inv -> forall Q P, ~ In inv Q -> ~ In id Q -> forb_n (length Q + S m) (length P) (body id) (P ++ Q ++ repeat inv (S m), None) = Ok (P ++ Q ++ id :: repeat inv m, Some (length P + length Q)).
Proof.
  intros NI. induction Q as [|a Q IH]; intros P HQ HI.
  - cbn [length Nat.add forb_n app repeat]. unfold body at 1. cbn [fst]. rewrite (rd_some _ _ inv) by apply nth_mid. cbn [bind]. destruct (Z.eqb_spec inv id); [congruence|]. rewrite Z.eqb_refl. rewrite wr_ok by (rewrite app_length; cbn [length]; lia). cbn [bind]. rewrite upd_mid, Nat.add_0_r. reflexivity.
  - cbn [length Nat.add forb_n]. unfold body at 1. cbn [fst app]. rewrite (rd_some _ _ a) by apply nth_mid. cbn [bind]. destruct (Z.eqb_spec a id) as [->|N]; [exfalso; apply HI; left; auto|]. destruct (Z.eqb_spec a inv) as [->|N']; [exfalso; apply HQ; left; auto|]. cbn [bind].
    specialize (IH (P ++ [a])). rewrite app_length in IH. cbn [length] in IH. rewrite <- !app_assoc in IH. cbn [app] in IH. rewrite Nat.add_1_r in IH. rewrite IH by first [intros H; apply HQ; right; exact H|intros H; apply HI; right; exact H]. do 3 f_equal. lia.
Qed.
Lemma assign_ok K l id : id <> inv -> ~ In inv (firsts l) -> length (firsts (l ++ [id])) <= K -> exists k, assign K id (firsts l ++ repeat inv (K - length (firsts l))) = Ok (firsts (l ++ [id]) ++ repeat inv (K - length (firsts (l ++ [id]))), Some k) /\ nth_error (firsts (l ++ [id])) k = Some id.
Proof.
  intros NI HI HK. unfold assign, forb. rewrite Nat.sub_0_r. fold (body id). rewrite firsts_snoc in *. destruct (in_dec Z.eq_dec id (firsts l)) as [H|H].
  - destruct (scan_in id (K - length (firsts l)) (firsts l) [] ltac:(intros []) HI H) as (k & E & N). cbn [app length] in E, N. replace (length (firsts l) + (K - length (firsts l))) with K in E by lia. exists k. auto.
  - rewrite app_length in HK |- *. cbn [length] in HK |- *. exists (length (firsts l)). split; [|apply nth_mid]. assert (E := scan_out id (K - (length (firsts l) + 1)) NI (firsts l) [] HI H). cbn [app length Nat.add] in E.
    replace (length (firsts l) + S (K - (length (firsts l) + 1))) with K in E by lia. replace (S (K - (length (firsts l) + 1))) with (K - length (firsts l)) in E by lia. etransitivity; [exact E|]. rewrite <- app_assoc. reflexivity.
Qed.

Section Face.
  Variables (hex : bool) (nSfs nFaVes nFaSvs nScs : nat) (scSv : list (list Z)) (fa : nat).
  Hypothesis shape : forall sf, sf < nSfs -> exists row, nth_error scSv (nScs + fa * nSfs + sf) = Some row /\ nFaVes <= length row.
  Hypothesis valid : ~ In inv (faceIds nSfs nFaVes nScs scSv fa).
  Hypothesis room : length (firsts (faceIds nSfs nFaVes nScs scSv fa)) <= nFaSvs.
  Hypothesis hex2 : hex = true -> 2 <= nFaVes.
  Let ids := faceIds nSfs nFaVes nScs scSv fa.
  Let at' sf sv := at2 scSv (nScs + fa * nSfs + sf) sv.
  (** ids before sub-face sf, vertex sv *)
  Let before sf sv := flat_map (fun sf => map (at' sf) (seq 0 nFaVes)) (seq 0 sf) ++ map (at' sf) (seq 0 sv).
  Let pad l := firsts l ++ repeat inv (nFaSvs - length (firsts l)).

  Lemma before_prefix sf sv : sf < nSfs -> sv <= nFaVes -> exists t, ids = before sf sv ++ t.
  Proof using.
    clear pad shape valid room hex2. intros Hf Hv. unfold ids, faceIds, before. set (F := fun sf => map (at2 scSv (nScs + fa * nSfs + sf)) (seq 0 nFaVes)).
    assert (S1 : seq 0 nSfs = seq 0 sf ++ sf :: seq (S sf) (nSfs - sf - 1)) by (assert (E : nSfs = sf + S (nSfs - sf - 1)) by lia; rewrite E at 1; rewrite seq_app; reflexivity).
    assert (S2 : F sf = map (at' sf) (seq 0 sv) ++ map (at' sf) (seq sv (nFaVes - sv))).
    { unfold F. rewrite <- map_app. assert (S3 : seq 0 nFaVes = seq 0 sv ++ seq sv (nFaVes - sv)) by (assert (E : nFaVes = sv + (nFaVes - sv)) by lia; rewrite E at 1; rewrite seq_app; reflexivity). rewrite <- S3. reflexivity. }
    rewrite S1, flat_map_app. cbn [flat_map]. rewrite S2. exists (map (at' sf) (seq sv (nFaVes - sv)) ++ flat_map F (seq (S sf) (nSfs - sf - 1))). rewrite <- !app_assoc. reflexivity.
  Qed.
  Lemma before_S sf sv : before sf (S sv) = before sf sv ++ [at' sf sv].
  Proof using. unfold before. rewrite seq_S, map_app, app_assoc. reflexivity. Qed.
  Lemma before_next sf : before (S sf) 0 = before sf nFaVes.
  Proof using. unfold before. rewrite seq_S, flat_map_app. cbn [flat_map seq map Nat.add]. rewrite !app_nil_r. reflexivity. Qed.
  Lemma fits sf sv : sf < nSfs -> sv <= nFaVes -> ~ In inv (before sf sv) /\ length (firsts (before sf sv)) <= nFaSvs.
  Proof using valid room.
    clear pad shape hex2. intros Hf Hv. destruct (before_prefix sf sv Hf Hv) as (t & E). fold ids in valid, room. rewrite E in valid, room. destruct (firsts_prefix (before sf sv) t) as (t' & E'). rewrite E', app_length in room. split; [intros H; apply valid, in_or_app; auto|lia].
  Qed.
  Lemma at_in sf sv : sf < nSfs -> sv < nFaVes -> at' sf sv <> inv.
  Proof using valid room. clear shape hex2. intros Hf Hv E. destruct (fits sf (S sv) Hf ltac:(lia)) as (H & _). apply H. rewrite before_S. apply in_or_app. right. left. exact E. Qed.

  Lemma prefix_nth l t k x : nth_error (firsts l) k = Some x -> nth_error (firsts (l ++ t)) k = Some x.
  Proof using. intros H. destruct (firsts_prefix l t) as (t' & ->). rewrite nth_error_app1; auto. apply nth_error_Some. congruence. Qed.

  Lemma sub_ok sf row : sf < nSfs -> length row = nFaVes -> exists row', subFace hex nSfs nFaVes nFaSvs nScs scSv fa sf (pad (before sf 0)) row = Ok (pad (before (S sf) 0), row') /\ length row' = nFaVes /\
    forall sv, sv < nFaVes -> exists k, nth_error row' sv = Some k /\ nth_error (firsts ids) k = Some (at' sf (exch hex sv)).
  Proof using shape valid room hex2.
    intros Hf Hr. unfold subFace. destruct (shape sf Hf) as (srow & ES & LS).
    destruct (for_ok (fun sv (st : list Z * list nat) => fst st = pad (before sf sv) /\ length (snd st) = nFaVes /\ forall j, j < sv -> exists k, nth_error (snd st) j = Some k /\ nth_error (firsts (before sf sv)) k = Some (at' sf j)) 0 nFaVes
      (fun sv st => id <- rd2 scSv (nScs + fa * nSfs + sf) sv ;; a <- assign nFaSvs id (fst st) ;; match snd a with Some cu => row <- wr (snd st) sv cu ;; Ok (fst a, row) | None => Ok (fst a, snd st) end)
      (pad (before sf 0), row)) as (st & E & (I1 & I2 & I3)); [lia|split; [reflexivity|split; [exact Hr|intros; lia]]| |].
    - intros sv st Hv (I1 & I2 & I3). assert (ID : rd2 scSv (nScs + fa * nSfs + sf) sv = Ok (at' sf sv)).
      { unfold rd2. rewrite (rd_some _ _ _ ES). cbn [bind]. rewrite (rd_ok srow sv inv) by lia. unfold at', at2. rewrite (nth_error_nth _ _ _ ES). reflexivity. }
      rewrite ID. cbn [bind]. rewrite I1. destruct (fits sf sv Hf ltac:(lia)) as (F1 & F2). destruct (fits sf (S sv) Hf ltac:(lia)) as (_ & F4). rewrite before_S in F4.
      destruct (assign_ok nFaSvs (before sf sv) (at' sf sv) (at_in sf sv Hf ltac:(lia)) ltac:(rewrite firsts_in; exact F1) F4) as (k & EA & K). unfold pad at 1. rewrite EA. cbn [bind fst snd]. rewrite wr_ok by lia. cbn [bind]. eexists. split; [reflexivity|]. cbn [fst snd]. rewrite before_S. split; [reflexivity|]. split; [rewrite length_upd; exact I2|].
      intros j Hj. destruct (Nat.eq_dec j sv) as [->|].
      + exists k. rewrite nth_error_upd_eq by lia. auto.
      + rewrite nth_error_upd_ne by auto. destruct (I3 j ltac:(lia)) as (k' & A & B). exists k'. split; [exact A|]. apply prefix_nth; auto.
    - rewrite E. cbn [bind]. destruct (before_prefix sf nFaVes Hf ltac:(lia)) as (t & ET). rewrite before_next. destruct hex.
      + specialize (hex2 eq_refl). destruct (I3 0 ltac:(lia)) as (k0 & A0 & B0). destruct (I3 1 ltac:(lia)) as (k1 & A1 & B1). rewrite (rd_some _ _ _ A0). cbn [bind]. rewrite (rd_some _ _ _ A1). cbn [bind]. rewrite wr_ok by lia. cbn [bind]. rewrite wr_ok by (rewrite length_upd; lia). cbn [bind]. eexists. rewrite I1. split; [reflexivity|]. split; [rewrite !length_upd; exact I2|].
        intros sv Hv. rewrite ET. destruct sv as [|[|sv]]; cbn [exch].
        * exists k1. rewrite nth_error_upd_ne by auto. rewrite nth_error_upd_eq by lia. split; [reflexivity|apply prefix_nth; auto].
        * exists k0. rewrite nth_error_upd_eq by (rewrite length_upd; lia). split; [reflexivity|apply prefix_nth; auto].
        * rewrite !nth_error_upd_ne by auto. destruct (I3 (S (S sv)) Hv) as (k & A & B). exists k. split; [exact A|apply prefix_nth; auto].
      + destruct st as [r row']. cbn [fst snd] in *. exists row'. rewrite I1. split; [reflexivity|]. split; [exact I2|]. intros sv Hv. rewrite ET. cbn [exch]. destruct (I3 sv Hv) as (k & A & B). exists k. split; [exact A|apply prefix_nth; auto].
  Qed.

  Lemma face_ok rows : length rows = nSfs -> (forall row, In row rows -> length row = nFaVes) -> exists rows', face hex nSfs nFaVes nFaSvs nScs scSv fa rows = Ok (firsts ids ++ repeat inv (nFaSvs - length (firsts ids)), rows') /\ length rows' = nSfs /\
    forall sf, sf < nSfs -> exists row, nth_error rows' sf = Some row /\ length row = nFaVes /\ forall sv, sv < nFaVes -> exists k, nth_error row sv = Some k /\ nth_error (firsts ids) k = Some (at' sf (exch hex sv)).
  Proof using shape valid room hex2.
    intros LR LW. unfold face.
    destruct (for_ok (fun sf (st : list Z * list (list nat)) => fst st = pad (before sf 0) /\ length (snd st) = nSfs /\ (forall row, In row (snd st) -> length row = nFaVes) /\ forall j, j < sf -> exists row, nth_error (snd st) j = Some row /\ forall sv, sv < nFaVes -> exists k, nth_error row sv = Some k /\ nth_error (firsts ids) k = Some (at' j (exch hex sv))) 0 nSfs
      (fun sf st => row <- rd (snd st) sf ;; x <- subFace hex nSfs nFaVes nFaSvs nScs scSv fa sf (fst st) row ;; rows <- wr (snd st) sf (snd x) ;; Ok (fst x, rows)) (repeat inv nFaSvs, rows)) as (st & E & (I1 & I2 & I3 & I4)).
    - lia.
    - cbn [fst snd]. split; [unfold pad, before; cbn [seq flat_map map app]; unfold firsts; cbn; rewrite Nat.sub_0_r; reflexivity|]. split; [exact LR|]. split; [exact LW|]. intros; lia.
    - intros sf st Hs (I1 & I2 & I3 & I4). rewrite (rd_ok (snd st) sf []) by lia. cbn [bind]. destruct (sub_ok sf (nth sf (snd st) []) ltac:(lia)) as (row' & ES & L' & N'); [apply I3, nth_In; lia|]. rewrite I1, ES. cbn [bind fst snd]. rewrite wr_ok by lia. cbn [bind]. eexists. split; [reflexivity|]. cbn [fst snd]. split; [reflexivity|]. split; [rewrite length_upd; exact I2|]. split.
      + intros row H. apply In_nth_error in H. destruct H as (j & H). destruct (Nat.eq_dec sf j) as [<-|N]; [rewrite nth_error_upd_eq in H by lia; injection H as <-; exact L'|]. rewrite nth_error_upd_ne in H by auto. apply I3. eapply nth_error_In; eauto.
      + intros j Hj. destruct (Nat.eq_dec sf j) as [<-|N]; [exists row'; rewrite nth_error_upd_eq by lia; auto|]. rewrite nth_error_upd_ne by auto. apply I4. lia.
    - destruct st as [r rows']. cbn [fst snd] in *. exists rows'. rewrite E. split; [|split; [exact I2|]].
      + f_equal. f_equal. rewrite I1. unfold before. cbn [seq map]. rewrite app_nil_r. reflexivity.
      + intros sf Hs. destruct (I4 sf Hs) as (row & A & B). exists row. split; [exact A|]. split; [apply I3; eapply nth_error_In; eauto|exact B].
  Qed.
End Face.

Lemma faSg_ok hex nFas nSfs nFaVes nFaSvs nScs scSv o_l o_r :
  (hex = true -> 2 <= nFaVes) -> length o_l = nFas -> length o_r = nFas -> (forall rows, In rows o_l -> length rows = nSfs /\ forall row, In row rows -> length row = nFaVes) ->
  (forall fa sf, fa < nFas -> sf < nSfs -> exists row, nth_error scSv (nScs + fa * nSfs + sf) = Some row /\ nFaVes <= length row) ->
  (forall fa, fa < nFas -> ~ In inv (faceIds nSfs nFaVes nScs scSv fa) /\ length (firsts (faceIds nSfs nFaVes nScs scSv fa)) <= nFaSvs) ->
  exists l r, faSg hex nFas nSfs nFaVes nFaSvs nScs scSv o_l o_r = Ok (l, r) /\ length l = nFas /\ length r = nFas /\ forall fa, fa < nFas ->
    let ids := firsts (faceIds nSfs nFaVes nScs scSv fa) in
    nth_error r fa = Some (ids ++ repeat inv (nFaSvs - length ids)) /\
    exists rows, nth_error l fa = Some rows /\ length rows = nSfs /\ forall sf, sf < nSfs -> exists row, nth_error rows sf = Some row /\ length row = nFaVes /\
    forall sv, sv < nFaVes -> exists k, nth_error row sv = Some k /\ nth_error ids k = Some (at2 scSv (nScs + fa * nSfs + sf) (exch hex sv)).
Proof.
  intros H2 LL LR W SH V. unfold faSg.
  destruct (for_ok (fun fa (st : list (list (list nat)) * list (list Z)) => length (fst st) = nFas /\ length (snd st) = nFas /\ (forall j, fa <= j -> nth_error (fst st) j = nth_error o_l j) /\ forall fa', fa' < fa -> let ids := firsts (faceIds nSfs nFaVes nScs scSv fa') in nth_error (snd st) fa' = Some (ids ++ repeat inv (nFaSvs - length ids)) /\
    exists rows, nth_error (fst st) fa' = Some rows /\ length rows = nSfs /\ forall sf, sf < nSfs -> exists row, nth_error rows sf = Some row /\ length row = nFaVes /\
    forall sv, sv < nFaVes -> exists k, nth_error row sv = Some k /\ nth_error ids k = Some (at2 scSv (nScs + fa' * nSfs + sf) (exch hex sv))) 0 nFas
    (fun fa st => rows <- rd (fst st) fa ;; x <- face hex nSfs nFaVes nFaSvs nScs scSv fa rows ;; l <- wr (fst st) fa (snd x) ;; r <- wr (snd st) fa (fst x) ;; Ok (l, r)) (o_l, o_r)) as ((l & r) & E & (I1 & I2 & _ & I4)).
  - lia.
  - cbn [fst snd]. split; [auto|]. split; [auto|]. split; [auto|]. intros; lia.
  - intros fa st Hf (I1 & I2 & I3 & I4). assert (Q := I3 fa ltac:(lia)). rewrite (nth_error_nth' o_l []) in Q by lia. rewrite (rd_some _ _ _ Q). cbn [bind]. destruct (W (nth fa o_l [])) as (W1 & W2); [apply nth_In; lia|].
    destruct (V fa ltac:(lia)) as (V1 & V2). destruct (face_ok hex nSfs nFaVes nFaSvs nScs scSv fa ltac:(intros; apply SH; lia) V1 V2 H2 _ W1 W2) as (rows' & EF & L' & N'). rewrite EF. cbn [bind fst snd]. rewrite wr_ok by lia. cbn [bind]. rewrite wr_ok by lia. cbn [bind]. eexists. split; [reflexivity|]. cbn [fst snd].
    split; [rewrite length_upd; auto|]. split; [rewrite length_upd; auto|]. split; [intros j Hj; rewrite nth_error_upd_ne by lia; apply I3; lia|]. intros fa' Hf'. destruct (Nat.eq_dec fa fa') as [<-|N].
    + cbv zeta. rewrite !nth_error_upd_eq by lia. split; [reflexivity|]. exists rows'. auto.
    + cbv zeta. rewrite !nth_error_upd_ne by auto. apply I4. lia.
  - exists l, r. split; [exact E|]. split; [exact I1|]. split; [exact I2|]. exact I4.
Qed.

(** ** Faces of quads *)
Lemma firsts_path (V : nat -> Z) n : (forall i j, i <= n -> j <= n -> V i = V j -> i = j) -> 0 < n -> firsts (flat_map (fun sf => [V sf; V (sf + 1)]) (seq 0 n)) = map V (seq 0 (n + 1)).
Proof.
  intros I. assert (G : forall m, m < n -> firsts (flat_map (fun sf => [V sf; V (sf + 1)]) (seq 0 (S m))) = map V (seq 0 (S m + 1))).
  { induction m as [|m IH]; intros H.
    - cbn [seq flat_map app Nat.add map]. change [V 0; V 1] with ([V 0] ++ [V 1]). rewrite firsts_snoc. change (firsts [V 0]) with [V 0]. destruct (in_dec Z.eq_dec (V 1) [V 0]) as [[Q|[]]|]; [apply I in Q; lia|reflexivity].
    - rewrite seq_S, flat_map_app. cbn [flat_map]. rewrite app_nil_r. change (0 + S m) with (S m). change [V (S m); V (S m + 1)] with ([V (S m)] ++ [V (S m + 1)]). rewrite app_assoc, !firsts_snoc, IH by lia. destruct (in_dec Z.eq_dec (V (S m)) (map V (seq 0 (S m + 1)))) as [_|N]; [|exfalso; apply N, in_map, in_seq; lia].
      destruct (in_dec Z.eq_dec (V (S m + 1)) (map V (seq 0 (S m + 1)))) as [Q|_].
      + exfalso. apply in_map_iff in Q. destruct Q as (j & Q & Hj). apply in_seq in Hj. apply I in Q; lia.
      + replace (S (m + 1) + 1) with (S (S m + 1)) by lia. change (S (S m) + 1) with (S (S m + 1)). rewrite (seq_S (S m + 1)), map_app. reflexivity. }
  intros H. destruct n as [|n]; [lia|]. apply G. lia.
Qed.
(** vertex [k] of face [fa], counter-clockwise *)
Definition faceV (n fa k : nat) : nat := match fa with 0 => id n k 0 | 1 => id n n k | 2 => id n (n - k) n | _ => id n 0 (n - k) end.
Lemma faceV_lt n fa k : k <= n -> faceV n fa k < (n + 1) * (n + 1).
Proof. intros H. unfold faceV, id. destruct fa as [|[|[|fa]]]; nia. Qed.
Lemma faceV_inj n fa i j : i <= n -> j <= n -> faceV n fa i = faceV n fa j -> i = j.
Proof. intros Hi Hj E. unfold faceV in E. destruct fa as [|[|[|fa]]]; apply id_inj in E; lia. Qed.
Lemma ghost_row deg fa sf : let n := nSfs deg in fa < 4 -> sf < n -> nth_error (quadShorts deg) (n * n + fa * n + sf) = Some (map toShort [Some (faceV n fa sf); Some (faceV n fa (sf + 1)); None; None]).
Proof.
  intros n Hf Hs. assert (N := n_pos deg). fold n in N. unfold quadShorts. rewrite nth_error_map, ves_rows. fold n. replace (n * n + fa * n + sf) with (n * n + n * fa + sf) by lia. rewrite <- num_gh by auto. rewrite row_num by (cbn [okKind]; auto). cbn [option_map ves]. f_equal. f_equal. unfold recvVe, faceV.
  replace (n - (sf + 1)) with (n - 1 - sf) by lia. destruct fa as [|[|[|[|fa]]]]; reflexivity || lia.
Qed.
Lemma toShort_small v n : (n + 1) * (n + 1) < 256 * 256 -> v < (n + 1) * (n + 1) -> toShort (Some v) = Z.of_nat v.
Proof. intros H Hv. unfold toShort. apply Z.mod_small. lia. Qed.
