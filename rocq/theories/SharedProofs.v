(** Proofs about the shared memory model: balancing, sparse offsets, order of the regions. *)
From Coq Require Import Sorted.
From Verif Require Import Util Sparse SchedModel SchedProofs Shared.

Section Balance.
Variables (O : fops) (nw : nat).

(** ** loops which adjust the sizes *)

Lemma list_sum_cons x l : list_sum (x :: l) = x + list_sum l.
Proof. reflexivity. Qed.
Lemma list_sum_upd (l : list nat) i v x : nth_error l i = Some x -> list_sum (upd l i v) + x = list_sum l + v.
Proof.
  revert i. induction l as [|y l IH]; intros [|i] H; try discriminate; cbn [upd nth_error] in *; rewrite ?list_sum_cons.
  - injection H as ->. lia.
  - specialize (IH i H). lia.
Qed.
Lemma list_sum_zero (l : list nat) : (forall j x, nth_error l j = Some x -> x = 0) -> list_sum l = 0.
Proof.
  induction l as [|y l IH]; intros H; [reflexivity|]. rewrite list_sum_cons, (H 0 y) by reflexivity. apply IH. intros j x Hj. exact (H (S j) x Hj).
Qed.
Lemma list_sum_repeat v n : list_sum (repeat v n) = n * v.
Proof. induction n; [reflexivity|]. cbn [repeat]. rewrite list_sum_cons. lia. Qed.

Lemma removePass_n n : forall k i sz d, i + k = nw -> length sz = nw -> list_sum sz = d -> n < d ->
  exists sz' d', forb_n k i (fun w '(sz, d) =>
    v <- rd sz w ;;
    '(sz, d) <- (if 0 <? v then sz <- wr sz w (v - 1) ;; Ok (sz, d - 1) else Ok (sz, d)) ;;
    Ok ((sz, d), d =? n)) (sz, d) = Ok (sz', d') /\ length sz' = nw /\ list_sum sz' = d' /\ n <= d' <= d /\
    (d' < d \/ forall j x, i <= j -> nth_error sz j = Some x -> x = 0).
Proof.
  induction k as [|k IH]; intros i sz d Hk Hl Hs Hn; cbn [forb_n].
  - exists sz, d. repeat split; auto; try lia. right. intros j x Hj Hx.
    assert (nth_error sz j <> None) by congruence. apply nth_error_Some in H. lia.
  - destruct (nth_error sz i) as [v|] eqn:E; [|apply nth_error_None in E; lia].
    rewrite (rd_some _ _ _ E). cbn [bind]. destruct (Nat.ltb_spec 0 v) as [Hv|Hv].
    + rewrite wr_ok by lia. cbn [bind]. pose proof (list_sum_upd _ _ (v - 1) _ E) as SU.
      destruct (Nat.eqb_spec (d - 1) n) as [En|En].
      * exists (upd sz i (v - 1)), (d - 1). rewrite length_upd. repeat split; auto; lia.
      * destruct (IH (S i) (upd sz i (v - 1)) (d - 1)) as (sz' & d' & E1 & E2 & E3 & E4 & E5);
          rewrite ?length_upd; auto; try lia.
        exists sz', d'. repeat split; auto; lia.
    + cbn [bind]. destruct (Nat.eqb_spec d n) as [En|En]; [lia|].
      destruct (IH (S i) sz d) as (sz' & d' & E1 & E2 & E3 & E4 & E5); auto; try lia.
      exists sz', d'. repeat split; auto; try lia. destruct E5 as [E5|E5]; [auto|]. right.
      intros j x Hj Hx. destruct (Nat.eq_dec j i) as [->|]; [assert (x = v) by congruence; lia|]. apply (E5 j); auto; lia.
Qed.

Lemma removePass_ok n sz d : length sz = nw -> list_sum sz = d -> n < d ->
  exists sz' d', removePass nw n (sz, d) = Ok (sz', d') /\ length sz' = nw /\ list_sum sz' = d' /\ n <= d' < d.
Proof.
  intros Hl Hs Hn. unfold removePass, forb. rewrite Nat.sub_0_r.
  destruct (removePass_n n nw 0 sz d) as (sz' & d' & E1 & E2 & E3 & E4 & E5); auto.
  exists sz', d'. repeat split; auto; try lia. destruct E5 as [|E5]; auto. exfalso.
  rewrite list_sum_zero in Hs; [lia|]. intros j x. apply E5. lia.
Qed.

Lemma removeLoop_ok n : forall fuel sz d, length sz = nw -> list_sum sz = d -> d - n <= fuel ->
  exists sz' d', removeLoop nw fuel n (sz, d) = Ok (sz', d') /\ length sz' = nw /\ list_sum sz' = d' /\ d' <= n /\
    (d <= n -> sz' = sz).
Proof.
  induction fuel as [|fuel IH]; intros sz d Hl Hs Hf; cbn [removeLoop snd].
  - replace (n <? d) with false by lia. exists sz, d. repeat split; auto; lia.
  - destruct (Nat.ltb_spec n d) as [Hd|Hd]; [|exists sz, d; repeat split; auto; lia].
    destruct (removePass_ok n sz d Hl Hs Hd) as (sz1 & d1 & E1 & E2 & E3 & E4). rewrite E1. cbn [bind].
    destruct (IH sz1 d1) as (sz2 & d2 & F1 & F2 & F3 & F4 & F5); auto; try lia.
    exists sz2, d2. repeat split; auto; lia.
Qed.

Lemma addPass_n n : forall k i sz d, i + k = nw -> length sz = nw -> list_sum sz = d -> d < n ->
  exists sz' d', forb_n k i (fun w '(sz, d) =>
    v <- rd sz w ;; sz <- wr sz w (S v) ;; Ok ((sz, S d), S d =? n)) (sz, d) = Ok (sz', d') /\
    length sz' = nw /\ list_sum sz' = d' /\ d <= d' <= n /\ (d < d' \/ k = 0).
Proof.
  induction k as [|k IH]; intros i sz d Hk Hl Hs Hn; cbn [forb_n].
  - exists sz, d. repeat split; auto; lia.
  - destruct (nth_error sz i) as [v|] eqn:E; [|apply nth_error_None in E; lia].
    rewrite (rd_some _ _ _ E). cbn [bind]. rewrite wr_ok by lia. cbn [bind]. pose proof (list_sum_upd _ _ (S v) _ E) as SU.
    destruct (Nat.eqb_spec (S d) n) as [En|En].
    + exists (upd sz i (S v)), (S d). rewrite length_upd. repeat split; auto; lia.
    + destruct (IH (S i) (upd sz i (S v)) (S d)) as (sz' & d' & E1 & E2 & E3 & E4 & E5); rewrite ?length_upd; auto; try lia.
      exists sz', d'. repeat split; auto; lia.
Qed.

Lemma addPass_ok n sz d : 0 < nw -> length sz = nw -> list_sum sz = d -> d < n ->
  exists sz' d', addPass nw n (sz, d) = Ok (sz', d') /\ length sz' = nw /\ list_sum sz' = d' /\ d < d' <= n.
Proof.
  intros Hw Hl Hs Hn. unfold addPass, forb. rewrite Nat.sub_0_r.
  destruct (addPass_n n nw 0 sz d) as (sz' & d' & E1 & E2 & E3 & E4 & E5); auto.
  exists sz', d'. repeat split; auto; lia.
Qed.

Lemma addLoop_ok n : 0 < nw -> forall fuel sz d, length sz = nw -> list_sum sz = d -> d <= n -> n - d <= fuel ->
  exists sz', addLoop nw fuel n (sz, d) = Ok (sz', n) /\ length sz' = nw /\ list_sum sz' = n.
Proof.
  intros Hw. induction fuel as [|fuel IH]; intros sz d Hl Hs Hd Hf; cbn [addLoop snd].
  - replace (d <? n) with false by lia. assert (d = n) as -> by lia. exists sz. auto.
  - destruct (Nat.ltb_spec d n) as [Hn|Hn]; [|assert (d = n) as -> by lia; exists sz; auto].
    destruct (addPass_ok n sz d Hw Hl Hs Hn) as (sz1 & d1 & E1 & E2 & E3 & E4). rewrite E1. cbn [bind].
    apply (IH sz1 d1); auto; lia.
Qed.

(** sizes which differ by at most one, larger ones first or last *)
Definition even (sz : list nat) : Prop := exists v, forall x, In x sz -> x = v \/ x = S v.

Lemma removePass_eq n v : forall k i d, i + k = nw -> d = i * v + k * S v -> n < d ->
  exists sz' d', forb_n k i (fun w '(sz, d) =>
    v <- rd sz w ;;
    '(sz, d) <- (if 0 <? v then sz <- wr sz w (v - 1) ;; Ok (sz, d - 1) else Ok (sz, d)) ;;
    Ok ((sz, d), d =? n)) (repeat v i ++ repeat (S v) k, d) = Ok (sz', d') /\
    ((d' = n /\ even sz') \/ (sz' = repeat v nw /\ d' = nw * v /\ n < d')).
Proof.
  induction k as [|k IH]; intros i d Hk Hd Hn; cbn [forb_n].
  - eexists _, _. split; [reflexivity|]. right. cbn [repeat]. rewrite app_nil_r. replace i with nw by lia. repeat split; lia.
  - assert (E : nth_error (repeat v i ++ repeat (S v) (S k)) i = Some (S v)).
    { rewrite nth_error_app2 by (now rewrite repeat_length). rewrite repeat_length, Nat.sub_diag. reflexivity. }
    rewrite (rd_some _ _ _ E). cbn [bind]. replace (0 <? S v) with true by reflexivity.
    rewrite wr_ok by (rewrite app_length, !repeat_length; lia). cbn [bind].
    cbn [repeat]. rewrite upd_app_at by (now rewrite repeat_length). replace (S v - 1) with v by lia.
    replace (repeat v i ++ v :: repeat (S v) k) with (repeat v (S i) ++ repeat (S v) k).
    2: { replace (S i) with (i + 1) by lia. rewrite repeat_app, <- app_assoc. reflexivity. }
    destruct (Nat.eqb_spec (d - 1) n) as [En|En].
    + eexists _, _. split; [reflexivity|]. left. split; auto. exists v. intros x Hx. apply in_app_or in Hx as [Hx|Hx]; apply repeat_spec in Hx; auto.
    + apply IH; try lia.
Qed.

Lemma removeLoop_eq n : forall fuel v d, d = nw * v -> d - n <= fuel ->
  exists sz' d', removeLoop nw fuel n (repeat v nw, d) = Ok (sz', d') /\
   ((d' = n /\ even sz') \/ exists v', sz' = repeat v' nw /\ d' = nw * v' /\ d' <= n).
Proof.
  induction fuel as [|fuel IH]; intros v d Hd Hf; cbn [removeLoop snd].
  - replace (n <? d) with false by lia. eexists _, _. split; [reflexivity|]. right. exists v. repeat split; lia.
  - destruct (Nat.ltb_spec n d) as [Hn|Hn]; [|eexists _, _; split; [reflexivity|]; right; exists v; repeat split; lia].
    destruct v as [|v]; [lia|].
    unfold removePass, forb. rewrite Nat.sub_0_r.
    destruct (removePass_eq n v nw 0 d ltac:(lia) ltac:(lia) Hn) as (sz1 & d1 & E1 & E2). cbn [repeat app] in E1. rewrite E1. cbn [bind].
    destruct E2 as [(-> & Ev)|(-> & -> & Hn')].
    + exists sz1, n. split; [|auto]. destruct fuel; cbn [removeLoop snd]; rewrite Nat.ltb_irrefl; reflexivity.
    + apply IH; auto. nia.
Qed.

Lemma addPass_eq n v : forall k i d, i + k = nw -> d = i * S v + k * v -> d < n ->
  exists sz' d', forb_n k i (fun w '(sz, d) =>
    v <- rd sz w ;; sz <- wr sz w (S v) ;; Ok ((sz, S d), S d =? n)) (repeat (S v) i ++ repeat v k, d) = Ok (sz', d') /\
    ((d' = n /\ even sz') \/ (sz' = repeat (S v) nw /\ d' = nw * S v /\ d' < n)).
Proof.
  induction k as [|k IH]; intros i d Hk Hd Hn; cbn [forb_n].
  - eexists _, _. split; [reflexivity|]. right. cbn [repeat]. rewrite app_nil_r. replace i with nw by lia. repeat split; lia.
  - assert (E : nth_error (repeat (S v) i ++ repeat v (S k)) i = Some v).
    { rewrite nth_error_app2 by (now rewrite repeat_length). rewrite repeat_length, Nat.sub_diag. reflexivity. }
    rewrite (rd_some _ _ _ E). cbn [bind].
    rewrite wr_ok by (rewrite app_length, !repeat_length; lia). cbn [bind].
    cbn [repeat]. rewrite upd_app_at by (now rewrite repeat_length).
    replace (repeat (S v) i ++ S v :: repeat v k) with (repeat (S v) (S i) ++ repeat v k).
    2: { replace (S i) with (i + 1) by lia. rewrite repeat_app, <- app_assoc. reflexivity. }
    destruct (Nat.eqb_spec (S d) n) as [En|En].
    + eexists _, _. split; [reflexivity|]. left. split; auto. exists v. intros x Hx. apply in_app_or in Hx as [Hx|Hx]; apply repeat_spec in Hx; auto.
    + apply IH; try lia.
Qed.

Lemma addLoop_eq n : 0 < nw -> forall fuel v d, d = nw * v -> n - d <= fuel -> d <= n ->
  exists sz', addLoop nw fuel n (repeat v nw, d) = Ok (sz', n) /\ even sz'.
Proof.
  intros Hw. induction fuel as [|fuel IH]; intros v d Hd Hf Hle; cbn [addLoop snd].
  - replace (d <? n) with false by lia. assert (d = n) as -> by lia. eexists. split; [reflexivity|].
    exists v. intros x Hx. apply repeat_spec in Hx. auto.
  - destruct (Nat.ltb_spec d n) as [Hn|Hn].
    2: { assert (d = n) as -> by lia. eexists. split; [reflexivity|]. exists v. intros x Hx. apply repeat_spec in Hx. auto. }
    unfold addPass, forb. rewrite Nat.sub_0_r.
    destruct (addPass_eq n v nw 0 d ltac:(lia) ltac:(lia) Hn) as (sz1 & d1 & E1 & E2). cbn [repeat app] in E1. rewrite E1. cbn [bind].
    destruct E2 as [(-> & Ev)|(-> & -> & Hn')].
    + exists sz1. split; [|auto]. destruct fuel; cbn [addLoop snd]; rewrite Nat.ltb_irrefl; reflexivity.
    + apply IH; auto; nia.
Qed.

Lemma distribute_ok n sizes el : 0 < nw -> length sizes = nw -> length el = nw ->
  exists sz, distribute O nw n sizes el = Ok sz /\ length sz = nw /\ list_sum sz = n.
Proof.
  intros Hw H1 H2. unfold distribute.
  set (th := map _ (combine sizes el)). set (sz := map _ th).
  assert (L : length sz = nw). { unfold sz, th. rewrite !map_length, combine_length. lia. }
  destruct (removeLoop_ok n (list_sum sz - n) sz (list_sum sz)) as (sz1 & d1 & E1 & E2 & E3 & E4 & _); auto.
  rewrite E1. cbn [bind].
  destruct (addLoop_ok n Hw (n - d1) sz1 d1) as (sz2 & F1 & F2 & F3); auto. rewrite F1. cbn [bind]. eauto.
Qed.

Lemma combine_repeat {A B} (a : A) (b : B) n : combine (repeat a n) (repeat b n) = repeat (a, b) n.
Proof. induction n; cbn; congruence. Qed.
Lemma map_repeat' {A B} (f : A -> B) a n : map f (repeat a n) = repeat (f a) n.
Proof. induction n; cbn; congruence. Qed.

Lemma distribute_even n a e : 0 < nw ->
  exists sz, distribute O nw n (repeat a nw) (repeat e nw) = Ok sz /\ length sz = nw /\ list_sum sz = n /\ even sz.
Proof.
  intros Hw. destruct (distribute_ok n (repeat a nw) (repeat e nw)) as (sz & E & L & S); rewrite ?repeat_length; auto.
  exists sz. split; auto. split; auto. split; auto.
  unfold distribute in E. rewrite combine_repeat, !map_repeat' in E. cbv zeta in E.
  set (v := if feq O _ _ then 0 else _) in E. rewrite list_sum_repeat in E.
  destruct (removeLoop_eq n (nw * v - n) v (nw * v)) as (sz1 & d1 & E1 & E2); auto.
  rewrite E1 in E. cbn [bind] in E. destruct E2 as [(-> & Ev)|(v' & -> & -> & Hle)].
  - assert (EA : addLoop nw (n - n) n (sz1, n) = Ok (sz1, n)).
    { destruct (n - n); cbn [addLoop snd]; rewrite Nat.ltb_irrefl; reflexivity. }
    rewrite EA in E. cbn [bind] in E. congruence.
  - destruct (addLoop_eq n Hw (n - nw * v') v' (nw * v')) as (sz2 & F1 & F2); auto. rewrite F1 in E. cbn [bind] in E. congruence.
Qed.

(** ** firsts *)
Lemma firsts_ok f sz old : 0 < nw -> length sz = nw -> length old = nw ->
  exists fs, firsts nw f sz old = Ok fs /\ length fs = nw /\
    forall w, w < nw -> nth_error fs w = Some (f + list_sum (firstn w sz)).
Proof.
  intros Hw H1 H2. unfold firsts. rewrite wr_ok by lia. cbn [bind].
  loop (fun i fs => length fs = nw /\ forall w, w < i -> nth_error fs w = Some (f + list_sum (firstn w sz))) as fs E (L & H).
  - lia.
  - rewrite length_upd. split; auto. intros w Hi. assert (w = 0) as -> by lia. rewrite nth_error_upd_eq by lia. cbn. f_equal. lia.
  - intros k fs Hk (L & H).
    rewrite (rd_some _ _ _ (H (k - 1) ltac:(lia))). cbn [bind].
    destruct (nth_error sz (k - 1)) as [v|] eqn:Ev; [|apply nth_error_None in Ev; lia].
    rewrite (rd_some _ _ _ Ev). cbn [bind]. rewrite wr_ok by lia. eexists. split; [reflexivity|]. rewrite length_upd. split; auto.
    intros w Hi. destruct (Nat.eq_dec w k) as [->|].
    + rewrite nth_error_upd_eq by lia. pose proof (firstn_S_snoc _ _ _ Ev) as FS. replace (S (k - 1)) with k in FS by lia. rewrite FS, list_sum_app, list_sum_cons. cbn. f_equal. lia.
    + rewrite nth_error_upd_ne by lia. apply H. lia.
  - exists fs. auto.
Qed.

(** ** sparse offsets *)
Lemma spAdv_ok A B lim : (forall a, In a A -> a < lim) -> (forall b, In b B -> lim <= b) ->
  forall fuel k, k <= length A -> length A - k <= fuel -> spAdv fuel (A ++ B) lim k = Ok (length A).
Proof.
  intros HA HB. 
  assert (END : forall fuel, spAdv fuel (A ++ B) lim (length A) = Ok (length A)).
  { intros fuel. assert (EQ : spAdv fuel (A ++ B) lim (length A) =
      if length A <? length (A ++ B) then d <- rd (A ++ B) (length A) ;;
        if d <? lim then match fuel with 0 => Er Efuel | S fuel => spAdv fuel (A ++ B) lim (S (length A)) end else Ok (length A)
      else Ok (length A)) by (destruct fuel; reflexivity). rewrite EQ. clear EQ.
    destruct B as [|b B']; [rewrite app_nil_r, Nat.ltb_irrefl; reflexivity|].
    rewrite app_length. cbn [length]. replace (length A <? length A + S (length B')) with true by lia.
    unfold rd. rewrite nth_error_app2 by lia. rewrite Nat.sub_diag. cbn [nth_error bind].
    specialize (HB b (or_introl eq_refl)). replace (b <? lim) with false by lia. reflexivity. }
  induction fuel as [|fuel IH]; intros k Hk Hf.
  - assert (k = length A) as -> by lia. apply END.
  - destruct (Nat.eq_dec k (length A)) as [->|Ne]; [apply END|]. cbn [spAdv].
    rewrite app_length. replace (k <? length A + length B) with true by lia.
    destruct (nth_error A k) as [a|] eqn:E; [|apply nth_error_None in E; lia].
    rewrite (rd_some _ k a) by (now rewrite nth_error_app1 by lia). cbn [bind].
    pose proof (HA a (nth_error_In _ _ E)). replace (a <? lim) with true by lia. apply IH; lia.
Qed.

Definition window (P : nat -> bool) (a n : nat) : list nat := filter P (seq a n).
Lemma rank_window P a n : rank P (a + n) = rank P a + length (window P a n).
Proof. unfold rank, ids, window. rewrite seq_app, filter_app, app_length. reflexivity. Qed.

Lemma spAdv_window P f n k k' : k <= k' -> k' <= n ->
  spAdv (length (window P f n)) (window P f n) (f + k') (length (window P f k)) = Ok (length (window P f k')).
Proof.
  intros H1 H2. assert (E : window P f n = window P f k' ++ window P (f + k') (n - k')).
  { unfold window. rewrite <- filter_app, <- seq_app. f_equal. f_equal. lia. }
  rewrite E at 2. apply spAdv_ok.
  - intros a Ha. apply filter_In in Ha as [Ha _]. apply in_seq in Ha. lia.
  - intros b Hb. apply filter_In in Hb as [Hb _]. apply in_seq in Hb. lia.
  - assert (E' : window P f k' = window P f k ++ window P (f + k) (k' - k)).
    { unfold window. rewrite <- filter_app, <- seq_app. f_equal. f_equal. lia. }
    rewrite E', app_length. lia.
  - rewrite E, app_length. lia.
Qed.

Lemma firstn_sum_le (l : list nat) w : list_sum (firstn w l) <= list_sum l.
Proof. rewrite <- (firstn_skipn w l) at 2. rewrite list_sum_app. lia. Qed.
Lemma firstn_sum_S (l : list nat) w x : nth_error l w = Some x -> list_sum (firstn (S w) l) = list_sum (firstn w l) + x.
Proof. intros H. rewrite (firstn_S_snoc _ _ _ H), list_sum_app. cbn. lia. Qed.

(** packages of a region *)
Definition PkgsOk (r : lbr) : Prop :=
  length (pFirst r) = nw /\ length (pSize r) = nw /\ list_sum (pSize r) = rSize r /\
  forall w, w < nw -> nth_error (pFirst r) w = Some (rFirst r + list_sum (firstn w (pSize r))).

(** sparse data of a region *)
Definition SpData (types : list N) (chars : list N) (r : lbr) : Prop :=
  rFirstSp r = map (fun t => rank (sp t chars) (rFirst r)) types /\
  rSpDe r = map (fun t => window (sp t chars) (rFirst r) (rSize r)) types /\
  length (pSp r) = nw /\ forall row, In row (pSp r) -> length row = length types.

Definition SpOk (types : list N) (chars : list N) (r : lbr) : Prop :=
  SpData types chars r /\
  forall w f, nth_error (pFirst r) w = Some f -> nth_error (pSp r) w = Some (map (fun t => rank (sp t chars) f) types).

Lemma resolveSpEn_ok types chars r : 0 < nw -> PkgsOk r -> SpData types chars r ->
  exists r', resolveSpEn r = Ok r' /\ rFirst r' = rFirst r /\ rSize r' = rSize r /\ pFirst r' = pFirst r /\ pSize r' = pSize r /\
    PkgsOk r' /\ SpOk types chars r'.
Proof.
  intros Hw PK (S1 & S2 & S3 & S4). pose proof PK as (K1 & K2 & K3 & K4). unfold resolveSpEn.
  set (f := rFirst r) in *. set (sz := pSize r) in *.
  loop (fun i (sps : list (list nat)) => length sps = nw /\
    forall w, w < nw -> exists row, nth_error sps w = Some row /\ length row = length types /\
      forall ty t, ty < i -> nth_error types ty = Some t -> nth_error row ty = Some (rank (sp t chars) (f + list_sum (firstn w sz)))) as sps E (L & H).
  - lia.
  - split; auto. intros w Hi. destruct (nth_error (pSp r) w) as [row|] eqn:Er; [|apply nth_error_None in Er; lia].
    exists row. split; auto. split; [apply S4; eapply nth_error_In; eauto|]. intros; lia.
  - rewrite S1, map_length. intros ty sps Hty (L & H).
    destruct (nth_error types ty) as [t|] eqn:Et; [|apply nth_error_None in Et; lia].
    rewrite (rd_some _ ty (rank (sp t chars) f)) by (now rewrite nth_error_map, Et). cbn [bind].
    rewrite S2. rewrite (rd_some _ ty (window (sp t chars) f (rSize r))) by (now rewrite nth_error_map, Et). cbn [bind].
    set (WD := window (sp t chars) f) in *.
    loop (fun wp (st : list (list nat) * nat) => let '(sps', k) := st in
      k = length (WD (list_sum (firstn wp sz))) /\ length sps' = nw /\
      forall w, w < nw -> exists row, nth_error sps' w = Some row /\ length row = length types /\
        (forall ty' t', ty' < ty -> nth_error types ty' = Some t' -> nth_error row ty' = Some (rank (sp t' chars) (f + list_sum (firstn w sz)))) /\
        (w < wp -> nth_error row ty = Some (rank (sp t chars) (f + list_sum (firstn w sz))))) as (sps', k) E' (Hk & L' & H').
    + lia.
    + split; [reflexivity|]. split; auto. intros w Hi. destruct (H w Hi) as (row & R1 & R2 & R3). exists row. repeat split; auto. lia.
    + rewrite S3. intros wp (sps', k) Hwp (-> & L' & H').
      destruct (H' wp ltac:(lia)) as (row & R1 & R2 & R3 & _).
      rewrite (rd_some _ _ _ R1). cbn [bind]. rewrite wr_ok by lia. cbn [bind]. rewrite wr_ok by lia. cbn [bind].
      rewrite (rd_some _ _ _ (K4 wp ltac:(lia))). cbn [bind].
      destruct (nth_error sz wp) as [n|] eqn:En; [|apply nth_error_None in En; lia].
      rewrite (rd_some _ _ _ En). cbn [bind].
      pose proof (firstn_sum_S _ _ _ En) as FS. pose proof (firstn_sum_le sz (S wp)) as FL.
      replace (f + list_sum (firstn wp sz) + n) with (f + list_sum (firstn (S wp) sz)) by lia.
      unfold WD. rewrite spAdv_window by lia. cbn [bind]. eexists. split; [reflexivity|]. cbv iota beta.
      split; [reflexivity|]. rewrite length_upd. split; auto.
      intros w Hi. destruct (Nat.eq_dec w wp) as [->|Ne].
      * rewrite nth_error_upd_eq by lia. eexists. split; [reflexivity|]. rewrite length_upd. split; auto. split.
        -- intros ty' t' Hlt Ht'. rewrite nth_error_upd_ne by lia. auto.
        -- intros _. rewrite nth_error_upd_eq by lia. now rewrite rank_window.
      * rewrite nth_error_upd_ne by lia. destruct (H' w Hi) as (row' & Q1 & Q2 & Q3 & Q4). exists row'. repeat split; auto.
        intros Hlt. apply Q4. lia.
    + assert (EW : list_sum (firstn (length (pSp r)) sz) = rSize r).
      { rewrite S3, <- K2. fold sz. now rewrite firstn_all. }
      rewrite EW in Hk. rewrite Hk. unfold check. rewrite Nat.eqb_refl. cbn [bind].
      eexists. split; [reflexivity|]. split; auto. intros w Hi. destruct (H' w Hi) as (row & R1 & R2 & R3 & R4).
      exists row. split; auto. split; auto. intros ty' t' Hlt Ht'.
      destruct (Nat.eq_dec ty' ty) as [->|]; [|apply R3; auto; lia]. assert (t' = t) as -> by congruence. apply R4. lia.
  - eexists. split; [reflexivity|]. cbn [rFirst rSize pFirst pSize pSp rFirstSp rSpDe]. repeat (split; [reflexivity|]). split.
    + exact PK.
    + split.
      * repeat split; auto. cbn. intros row Hr. apply In_nth_error in Hr as (w & Hr).
        assert (w < nw). { rewrite <- L. apply nth_error_Some. congruence. }
        destruct (H w H0) as (row' & R1 & R2 & _). congruence.
      * cbn [pFirst pSp]. intros w g Hg. assert (Hi : w < nw). { rewrite <- K1. apply nth_error_Some. congruence. }
        rewrite K4 in Hg by auto. injection Hg as <-. destruct (H w Hi) as (row & R1 & R2 & R3). rewrite R1. f_equal.
        apply nth_error_ext'. intros ty. rewrite nth_error_map.
        destruct (nth_error types ty) as [t|] eqn:Et.
        -- cbn. apply R3; auto. rewrite S1, map_length. apply nth_error_Some. congruence.
        -- apply nth_error_None. apply nth_error_None in Et. lia.
Qed.

(** ** balancing a region *)
Definition RgnOk (a : regArgs) (r : lbr) : Prop :=
  rFirst r = aFirst a /\ rSize r = aSize a /\ PkgsOk r /\ SpOk (aTypes a) (aChars a) r.

Definition smallTimes (el : list (F O)) : Prop := flt O (fold_left (fmin O) el (fbig O)) (zeroTime O) = true.

Lemma balance_go types chars r sz0 el : 0 < nw -> length sz0 = nw -> length el = nw -> length (pFirst r) = nw -> SpData types chars r ->
  exists r', (sz <- distribute O nw (rSize r) sz0 el ;;
    fs <- firsts nw (rFirst r) sz (pFirst r) ;;
    a <- rd fs (nw - 1) ;; n <- rd sz (nw - 1) ;;
    _ <- check (a + n =? rFirst r + rSize r) ;;
    resolveSpEn (mkLbr (rFirst r) (rSize r) fs sz (pSp r) (rFirstSp r) (rSpDe r))) = Ok r' /\
    rFirst r' = rFirst r /\ rSize r' = rSize r /\ PkgsOk r' /\ SpOk types chars r' /\
    distribute O nw (rSize r) sz0 el = Ok (pSize r').
Proof.
  intros Hw H1 H2 H3 SD. destruct (distribute_ok (rSize r) sz0 el Hw H1 H2) as (sz & E & L & Hs). rewrite E. cbn [bind].
  destruct (firsts_ok (rFirst r) sz (pFirst r) Hw L H3) as (fs & E2 & L2 & N2). rewrite E2. cbn [bind].
  rewrite (rd_some _ _ _ (N2 (nw - 1) ltac:(lia))). cbn [bind].
  destruct (nth_error sz (nw - 1)) as [n|] eqn:En; [|apply nth_error_None in En; lia].
  rewrite (rd_some _ _ _ En). cbn [bind].
  pose proof (firstn_sum_S _ _ _ En) as FS. replace (S (nw - 1)) with (length sz) in FS by lia. rewrite firstn_all in FS.
  unfold check. replace (_ =? _) with true by lia. cbn [bind].
  set (r1 := mkLbr _ _ _ _ _ _ _).
  destruct (resolveSpEn_ok types chars r1 Hw) as (r' & E3 & F1 & F2 & F3 & F4 & F5 & F6).
  { repeat split; auto. }
  { exact SD. }
  exists r'. rewrite E3, F1, F2, F4. repeat (split; [reflexivity|]). auto.
Qed.

Lemma balanceWrkRgn_ok a r el : 0 < nw -> length el = nw -> RgnOk a r -> exists r', balanceWrkRgn O nw r el = Ok r' /\ RgnOk a r'.
Proof.
  intros Hw He (R1 & R2 & PK & SK). unfold balanceWrkRgn. cbv zeta. pose proof PK as (K1 & K2 & K3 & K4).
  assert (GO : forall s0 e0, length s0 = nw -> length e0 = nw ->
    exists r', (sz <- distribute O nw (rSize r) s0 e0 ;;
    fs <- firsts nw (rFirst r) sz (pFirst r) ;;
    a <- rd fs (nw - 1) ;; n <- rd sz (nw - 1) ;;
    _ <- check (a + n =? rFirst r + rSize r) ;;
    resolveSpEn (mkLbr (rFirst r) (rSize r) fs sz (pSp r) (rFirstSp r) (rSpDe r))) = Ok r' /\ RgnOk a r').
  { intros s0 e0 L1 L2. destruct (balance_go (aTypes a) (aChars a) r s0 e0) as (r' & E & F1 & F2 & F3 & F4 & _); auto; [apply SK|].
    exists r'. split; auto. repeat split; try congruence; try apply F3; apply F4. }
  destruct (flt O _ (zeroTime O)); [apply GO; apply repeat_length|].
  destruct (flt O _ _); [|apply GO; auto]. exists r. repeat split; auto; try apply PK; apply SK.
Qed.

Lemma nth_error_skipn' {A} (l : list A) f d : nth_error (skipn f l) d = nth_error l (f + d).
Proof. revert l. induction f as [|f IH]; intros l; [reflexivity|]. destruct l as [|x l]; [destruct d; reflexivity|]. apply IH. Qed.

Lemma map_ids P f n : map (fun d => d + f) (ids (fun d => P (f + d)) n) = window P f n.
Proof.
  unfold ids, window. induction n as [|n IH]; [reflexivity|].
  rewrite (seq_snoc 0 n), (seq_snoc f n), !filter_app, map_app, IH. f_equal. cbn. destruct (P (f + n)); [|reflexivity].
  cbn. now rewrite Nat.add_comm.
Qed.

Lemma ids_ext P Q n : (forall i, P i = Q i) -> ids P n = ids Q n.
Proof. intros H. unfold ids. apply filter_ext. exact H. Qed.

Definition regValid (a : regArgs) : Prop := aTypes a = [] \/ aFirst a + aSize a <= length (aChars a).

Lemma newRgn_ok a : 0 < nw -> regValid a -> smallTimes (repeat (f0 O) nw) ->
  exists r, newRgn O nw (aFirst a) (aSize a) (aTypes a) (aChars a) = Ok r /\ RgnOk a r /\ even (pSize r).
Proof.
  intros Hw HV HS. unfold newRgn.
  set (f := aFirst a) in *. set (n := aSize a) in *. set (types := aTypes a) in *. set (chars := aChars a) in *.
  loop (fun i (st : list nat * list (list nat)) =>
    st = (map (fun t => rank (sp t chars) f) (firstn i types), map (fun t => window (sp t chars) f n) (firstn i types))) as st E H.
  - lia.
  - reflexivity.
  - intros ty st Hty ->. destruct (nth_error types ty) as [t|] eqn:Et; [|apply nth_error_None in Et; lia].
    destruct HV as [HV|HV]; [exfalso; fold types in HV; rewrite HV in Hty; cbn in Hty; lia|]. fold f n chars in HV.
    rewrite (rd_some _ _ _ Et). cbn [bind].
    rewrite nSp_ok by lia. cbn [bind]. assert (LS : n <= length (skipn f chars)) by (rewrite skipn_length; lia).
    rewrite nSp_ok by auto. cbn [bind]. rewrite linkSpDe_ok by (rewrite ?repeat_length; lia). cbn [bind].
    rewrite (skipn_all2 (repeat 0 _)) by (now rewrite repeat_length). rewrite app_nil_r.
    eexists. split; [reflexivity|]. rewrite (firstn_S_snoc _ _ _ Et), !map_app. cbn [map]. do 3 f_equal.
    rewrite (ids_ext _ (fun d => sp t chars (f + d))).
    + now rewrite map_ids.
    + intros i. unfold sp. now rewrite nth_error_skipn'.
  - rewrite H, firstn_all. cbv iota beta.
    unfold balanceWrkRgn. cbv zeta. red in HS. rewrite HS.
    set (r0 := mkLbr _ _ _ _ _ _ _).
    destruct (balance_go types chars r0 (repeat 1 nw) (repeat (f3343 O) nw)) as (r' & E' & F1 & F2 & F3 & F4 & F5);
      rewrite ?repeat_length; auto; [now cbn; rewrite repeat_length| |].
    { unfold r0. repeat split; cbn; auto; [apply repeat_length|]. intros row Hr. apply repeat_spec in Hr as ->. apply repeat_length. }
    exists r'. split; [exact E'|]. split; [repeat split; auto; try apply F3; apply F4|].
    destruct (distribute_even (rSize r0) 1 (f3343 O) Hw) as (sz & G1 & _ & _ & G4). rewrite G1 in F5. injection F5 as <-. exact G4.
Qed.

(** ** Registrations and their order *)
Definition regsOf (os : list (op O)) : list regArgs := flat_map (fun o => match o with OReg _ a => [a] | _ => [] end) os.

(** region, packages, and the number of its registration *)
Record ent := mkEnt { eI : nat; eA : regArgs; eStat : list status; eLb : lbr }.
Definition eRgn (e : ent) : wrgn := mkWrgn (aId (eA e)) (aStep (eA e)) (aTg (eA e)) (aPrio (eA e)) (eStat e).
Definition before (e e' : ent) : Prop :=
  (aPrio (eA e) > aPrio (eA e'))%Z \/ (aPrio (eA e) = aPrio (eA e') /\ eI e < eI e').

Definition SInv (regs : list regArgs) (s : shared) : Prop :=
  exists es : list ent, rgns s = map eRgn es /\ lbs s = map eLb es /\ StronglySorted before es /\
    (forall e, In e es -> nth_error regs (eI e) = Some (eA e) /\ RgnOk (eA e) (eLb e) /\ length (eStat e) = nw) /\
    (forall i a, nth_error regs i = Some a -> exists e, In e es /\ eI e = i).

Lemma insert_map {A B} (f : A -> B) l p x : insert (map f l) p (f x) = map f (insert l p x).
Proof. unfold insert. rewrite map_app, firstn_map, skipn_map. reflexivity. Qed.
Lemma insert_In {A} (l : list A) p x y : In y (insert l p x) <-> y = x \/ In y l.
Proof.
  unfold insert. rewrite in_app_iff. cbn. rewrite <- (firstn_skipn p l) at 3. rewrite in_app_iff. intuition.
Qed.
Lemma StronglySorted_app {A} (R : A -> A -> Prop) l1 l2 : StronglySorted R l1 -> StronglySorted R l2 ->
  (forall x y, In x l1 -> In y l2 -> R x y) -> StronglySorted R (l1 ++ l2).
Proof.
  intros H1 H2 H. induction H1 as [|x l1 H1 IH F]; cbn; auto. constructor.
  - apply IH. intros; apply H; cbn; auto.
  - apply Forall_app. split; auto. apply Forall_forall. intros y Hy. apply H; cbn; auto.
Qed.

Lemma regPos_split es e (SS : StronglySorted before es) : (forall x, In x es -> eI x < eI e) ->
  let p := regPos (map eRgn es) (aPrio (eA e)) in
  p <= length es /\ StronglySorted before (insert es p e).
Proof.
  intros HI p. subst p. induction SS as [|x es SS IH F].
  - cbn. split; auto. repeat constructor.
  - cbn [map regPos length]. replace (wPrio (eRgn x)) with (aPrio (eA x)) by reflexivity. destruct (Z.ltb_spec (aPrio (eA x)) (aPrio (eA e))) as [Hp|Hp].
    + split; [lia|]. unfold insert. cbn [firstn skipn app]. constructor; [constructor; auto|].
      rewrite Forall_forall in F. constructor; [left; lia|]. apply Forall_forall. intros y Hy. left. specialize (F y Hy). unfold before in F. lia.
    + destruct IH as (I1 & I2); [intros y Hy; apply HI; now right|]. split; [lia|].
      unfold insert in *. cbn [firstn skipn app]. constructor; [exact I2|].
      rewrite Forall_forall in F. apply Forall_forall. intros y Hy. apply (insert_In es) in Hy as [->|Hy]; [|auto].
      specialize (HI x (or_introl eq_refl)). unfold before. lia.
Qed.

Lemma upd_map {A B} (f : A -> B) l p x e : nth_error l p = Some e -> f x = f x -> upd (map f l) p (f x) = map f (upd l p x).
Proof. intros H _. revert p H. induction l as [|y l IH]; intros [|p] H; try discriminate; cbn; auto. f_equal. now apply IH. Qed.
Lemma upd_map_same {A B} (f : A -> B) l p x e : nth_error l p = Some e -> f x = f e -> map f (upd l p x) = map f l.
Proof. intros H Hf. revert p H. induction l as [|y l IH]; intros [|p] H; try discriminate; cbn in *.
  - injection H as ->. congruence.
  - f_equal. now apply IH. Qed.
Lemma upd_In {A} (l : list A) p x y : In y (upd l p x) -> y = x \/ In y l.
Proof. revert p. induction l as [|z l IH]; intros [|p] H; cbn in *; try tauto; destruct H as [H|H]; auto. apply IH in H. tauto. Qed.

Lemma SS_map {A} (R : A -> A -> Prop) (g : A -> A) l : (forall x y, R x y -> R (g x) (g y)) -> StronglySorted R l -> StronglySorted R (map g l).
Proof.
  intros Hg H. induction H as [|x l H IH F]; cbn; constructor; auto. rewrite Forall_forall in *. intros y Hy.
  apply in_map_iff in Hy as (z & <- & Hz). auto.
Qed.

(** changing the packages or the status of the entries *)
Lemma SS_upd es p e e' : StronglySorted before es -> nth_error es p = Some e -> eI e' = eI e -> eA e' = eA e ->
  StronglySorted before (upd es p e').
Proof.
  intros SS. revert p. induction SS as [|x es SS IH F]; intros [|p] H Hi Ha; try discriminate; cbn in *.
  - injection H as ->. constructor; auto. rewrite Forall_forall in *. intros y Hy. specialize (F y Hy).
    unfold before in *. rewrite Hi, Ha. exact F.
  - constructor; [eauto|]. rewrite Forall_forall in *. intros y Hy. apply upd_In in Hy as [->|Hy]; [|auto].
    specialize (F e (nth_error_In _ _ H)). unfold before in *. rewrite Hi, Ha. exact F.
Qed.

Lemma getWrkRgn_inv l id p : getWrkRgn l id = Ok p -> exists r, nth_error l p = Some r /\ wId r = id.
Proof.
  revert p. induction l as [|r l IH]; intros p H; [discriminate|]. cbn in H. destruct (Nat.eqb_spec (wId r) id) as [E|E].
  - injection H as <-. exists r. auto.
  - destruct (getWrkRgn l id) as [q|] eqn:Eq; [|discriminate]. injection H as <-. apply IH. reflexivity.
Qed.

Lemma set_stat_ok regs s p r st : SInv regs s -> nth_error (rgns s) p = Some r -> length st = nw -> SInv regs (setStat s p r st).
Proof.
  intros (es & E1 & E2 & SS & A & B) Hr Hst. rewrite E1, nth_error_map in Hr.
  destruct (nth_error es p) as [e|] eqn:Ee; [|discriminate]. injection Hr as <-.
  set (e' := mkEnt (eI e) (eA e) st (eLb e)). exists (upd es p e'). cbn [setStat rgns lbs]. split; [|split; [|split; [|split]]].
  - rewrite E1. rewrite <- (upd_map eRgn es p e' e Ee eq_refl). reflexivity.
  - rewrite E2. symmetry. apply (upd_map_same eLb es p e' e); auto.
  - apply (SS_upd _ _ e); auto.
  - intros x H. apply upd_In in H as [->|H]; [|apply A; auto]. destruct (A e) as (A1 & A2 & A3); [eapply nth_error_In; eauto|]. cbn. auto.
  - intros i a Hi. destruct (B i a Hi) as (x & Hx & <-). apply In_nth_error in Hx as (q & Hq).
    destruct (Nat.eq_dec q p) as [->|Ne].
    + exists e'. split; [|cbn; congruence]. apply nth_error_In with (n := p). apply nth_error_upd_eq. apply nth_error_Some. congruence.
    + exists x. split; auto. apply nth_error_In with (n := q). rewrite nth_error_upd_ne; auto.
Qed.
Lemma stat_ok_len (s : shared) regs p r : SInv regs s -> nth_error (rgns s) p = Some r -> length (wStat r) = nw.
Proof.
  intros (es & E1 & E2 & SS & A & B) Hr. rewrite E1, nth_error_map in Hr.
  destruct (nth_error es p) as [e|] eqn:Ee; [|discriminate]. injection Hr as <-. apply A. eapply nth_error_In; eauto.
Qed.

Definition opValid (nRgns : nat) (o : op O) : Prop :=
  match o with
  | OReg _ a => regValid a
  | OBal _ el => nRgns <= length el /\ forall e, In e el -> length e = nw
  | _ => True
  end.

Lemma bind_inv {A B} (m : res A) (k : A -> res B) b : bind m k = Ok b -> exists a, m = Ok a /\ k a = Ok b.
Proof. destruct m as [a|]; [eauto|discriminate]. Qed.

Lemma SInv_len regs s : SInv regs s -> length (lbs s) = length (rgns s).
Proof. intros (es & E1 & E2 & _). now rewrite E1, E2, !map_length. Qed.

Lemma setAll_len v : forall k i st st', length st = nw -> i + k = nw ->
  for_n k i (fun w st => o <- rd st w ;; _ <- check (status_eqb v RDY && (status_eqb o FIN || status_eqb o WAI)) ;; wr st w v) st = Ok st' ->
  length st' = nw.
Proof.
  induction k as [|k IH]; intros i st st' L Hi E; cbn [for_n] in E; [congruence|].
  apply bind_inv in E as (x & E1 & E2). apply bind_inv in E1 as (o & _ & E1). apply bind_inv in E1 as (_ & _ & E1).
  apply wr_inv in E1 as (_ & ->). apply (IH (S i) (upd st i v)); auto; rewrite ?length_upd; lia.
Qed.

(** a registration *)
Lemma reg_ok regs s a : 0 < nw -> smallTimes (repeat (f0 O) nw) -> SInv regs s -> regValid a ->
  exists s', regWrkRgn O nw a s = Ok s' /\ SInv (regs ++ [a]) s'.
Proof.
  intros Hw HS (es & E1 & E2 & SS & A & B) HV. unfold regWrkRgn.
  destruct (newRgn_ok a Hw HV HS) as (r & En & Rk & _). rewrite En. cbn [bind].
  set (e := mkEnt (length regs) a (repeat WAI nw) r).
  destruct (regPos_split es e SS) as (P1 & P2).
  { intros x Hx. destruct (A x Hx) as (A1 & _). cbn. apply nth_error_Some. congruence. }
  rewrite E1. cbn [eA e] in P1, P2. set (p := regPos _ _) in *.
  rewrite E2, map_length. unfold check. replace (p <=? length es) with true by lia. cbn [bind].
  eexists. split; [reflexivity|]. exists (insert es p e). cbn [rgns lbs]. split; [|split; [|split; [|split]]]; auto.
  - rewrite <- insert_map. reflexivity.
  - rewrite <- insert_map. reflexivity.
  - intros x Hx. apply insert_In in Hx as [->|Hx].
    + cbn. rewrite nth_error_app2, Nat.sub_diag by lia. split; [reflexivity|]. split; auto. apply repeat_length.
    + destruct (A x Hx) as (A1 & A2). split; auto. rewrite nth_error_app1; auto. apply nth_error_Some. congruence.
  - intros i b Hi. destruct (lt_dec i (length regs)) as [Hl|Hl].
    + rewrite nth_error_app1 in Hi by auto. destruct (B i b Hi) as (x & Hx & <-). exists x. split; auto. apply insert_In. auto.
    + exists e. split; [apply insert_In; auto|]. cbn. assert (i < length (regs ++ [a])) by (apply nth_error_Some; congruence).
      rewrite app_length in H. cbn in H. lia.
Qed.

Lemma bal_ok regs s el : 0 < nw -> SInv regs s -> length (rgns s) <= length el -> (forall e, In e el -> length e = nw) ->
  exists s', balance O nw el s = Ok s' /\ SInv regs s'.
Proof.
  intros Hw (es & E1 & E2 & SS & A & B) Hl He. unfold balance.
  loop (fun (_ : nat) (l : list lbr) => exists es', l = map eLb es' /\ map eRgn es' = map eRgn es /\ StronglySorted before es' /\
    (forall e, In e es' -> nth_error regs (eI e) = Some (eA e) /\ RgnOk (eA e) (eLb e) /\ length (eStat e) = nw) /\
    (forall i a, nth_error regs i = Some a -> exists e, In e es' /\ eI e = i)) as l E H.
  - lia.
  - exists es. auto.
  - intros i l Hi (es' & -> & F1 & F2 & F3 & F4). rewrite E2, map_length in Hi. rewrite E1, map_length in Hl.
    assert (EL : length es' = length es). { rewrite <- (map_length eRgn es'), F1. apply map_length. }
    destruct (nth_error es' i) as [e|] eqn:Ee; [|apply nth_error_None in Ee; lia].
    rewrite (rd_some _ i (eLb e)) by (now rewrite nth_error_map, Ee). cbn [bind].
    destruct (nth_error el i) as [t|] eqn:Et; [|apply nth_error_None in Et; lia].
    rewrite (rd_some _ _ _ Et). cbn [bind]. destruct (F3 e (nth_error_In _ _ Ee)) as (G1 & G2 & G3).
    destruct (balanceWrkRgn_ok (eA e) (eLb e) t Hw (He t (nth_error_In _ _ Et)) G2) as (r' & Eb & Rk).
    rewrite Eb. cbn [bind]. rewrite wr_ok by (rewrite map_length; lia). eexists. split; [reflexivity|].
    set (e' := mkEnt (eI e) (eA e) (eStat e) r'). exists (upd es' i e'). split; [|split; [|split; [|split]]].
    + symmetry. rewrite <- (upd_map eLb es' i e' e Ee eq_refl). reflexivity.
    + rewrite <- F1. apply (upd_map_same eRgn es' i e' e); auto.
    + apply (SS_upd _ _ e); auto.
    + intros x Hx. apply upd_In in Hx as [->|Hx]; [|apply F3; auto]. cbn. auto.
    + intros j a Hj. destruct (F4 j a Hj) as (x & Hx & <-). apply In_nth_error in Hx as (q & Hq).
      destruct (Nat.eq_dec q i) as [->|Ne].
      * exists e'. split; [|cbn; congruence]. apply nth_error_In with (n := i). apply nth_error_upd_eq. lia.
      * exists x. split; auto. apply nth_error_In with (n := q). rewrite nth_error_upd_ne; auto.
  - destruct H as (es' & -> & F1 & F2 & F3 & F4). eexists. split; [reflexivity|]. exists es'. cbn [rgns lbs]. rewrite E1. auto.
Qed.

Lemma apply_inv regs s s' o : 0 < nw -> smallTimes (repeat (f0 O) nw) -> SInv regs s -> opValid (length regs) o ->
  apply O nw o s = Ok s' -> SInv (regs ++ regsOf [o]) s'.
Proof.
  intros Hw HS I HV E. destruct o as [a|v id|v id w|v|el]; cbn [regsOf flat_map app]; rewrite ?app_nil_r; cbn [apply opValid] in *.
  - destruct (reg_ok regs s a Hw HS I HV) as (s1 & E1 & I1). congruence.
  - unfold setStatusAll in E. apply bind_inv in E as (p & E1 & E). apply bind_inv in E as (r & E2 & E).
    apply bind_inv in E as (st & E3 & E). injection E as <-. apply rd_inv in E2.
    apply set_stat_ok; auto. unfold for_ in E3. apply setAll_len in E3; auto; try lia. eapply stat_ok_len; eauto.
  - unfold setStatusTd in E. apply bind_inv in E as (p & E1 & E). apply bind_inv in E as (r & E2 & E).
    apply bind_inv in E as (o & E3 & E). apply bind_inv in E as (u & E4 & E). apply bind_inv in E as (st & E5 & E).
    injection E as <-. apply rd_inv in E2. apply wr_inv in E5 as (_ & ->).
    apply set_stat_ok; auto. rewrite length_upd. eapply stat_ok_len; eauto.
  - injection E as <-. destruct I as (es & E1 & E2 & SS & A & B).
    exists (map (fun e => mkEnt (eI e) (eA e) (repeat v nw) (eLb e)) es). cbn [rgns lbs]. split; [|split; [|split; [|split]]].
    + rewrite E1, !map_map. reflexivity.
    + rewrite E2, !map_map. reflexivity.
    + apply SS_map; auto.
    + intros x Hx. apply in_map_iff in Hx as (e & <- & He). destruct (A e He) as (A1 & A2 & A3). cbn.
      rewrite repeat_length. auto.
    + intros i a Hi. destruct (B i a Hi) as (x & Hx & <-). exists (mkEnt (eI x) (eA x) (repeat v nw) (eLb x)).
      split; auto. apply in_map_iff. eauto.
  - destruct HV as (V1 & V2). assert (LR : length (rgns s) <= length regs).
    { destruct I as (es & E1 & E2 & SS & A & B). rewrite E1, map_length.
      assert (ND : NoDup (map eI es)).
      { clear - SS A. induction SS as [|x es SS IH F]; cbn; constructor.
        - intros Hin. apply in_map_iff in Hin as (y & Ey & Hy). rewrite Forall_forall in F. specialize (F y Hy).
          destruct (A x (or_introl eq_refl)) as (A1 & _). destruct (A y (or_intror Hy)) as (A2 & _). rewrite Ey in A2.
          assert (eA x = eA y) by congruence. unfold before in F. rewrite H in F. lia.
        - apply IH. intros; apply A; now right. }
      assert (L : length (map eI es) <= length (seq 0 (length regs))).
      { apply NoDup_incl_length; auto. intros i Hi. apply in_map_iff in Hi as (e & <- & He). destruct (A e He) as (A1 & _).
        apply in_seq. split; [lia|]. apply nth_error_Some. congruence. }
      rewrite map_length, seq_length in L. exact L. }
    destruct (bal_ok regs s el Hw I) as (s1 & E1 & I1); auto; [lia|]. congruence.
Qed.

(** validity of a history of operations: [n] regions registered before *)
Fixpoint valid (n : nat) (os : list (op O)) : Prop :=
  match os with
  | [] => True
  | o :: os => opValid n o /\ valid (n + length (regsOf [o])) os
  end.

Lemma run_inv os : 0 < nw -> smallTimes (repeat (f0 O) nw) -> forall regs s s', SInv regs s -> valid (length regs) os ->
  run O nw os s = Ok s' -> SInv (regs ++ regsOf os) s'.
Proof.
  intros Hw HS. induction os as [|o os IH]; intros regs s s' I V E.
  - cbn in *. injection E as <-. now rewrite app_nil_r.
  - cbn [run] in E. apply bind_inv in E as (s1 & E1 & E2). destruct V as (V1 & V2).
    pose proof (apply_inv _ _ _ _ Hw HS I V1 E1) as I1.
    replace (regsOf (o :: os)) with (regsOf [o] ++ regsOf os) by (unfold regsOf; cbn [flat_map]; now rewrite app_nil_r).
    rewrite app_assoc. apply IH with (s := s1); auto. now rewrite app_length.
Qed.

Lemma SInv0 : SInv [] shared0.
Proof. exists []. cbn. repeat split; auto; try constructor; try tauto. intros [|i] a H; discriminate. Qed.

End Balance.
