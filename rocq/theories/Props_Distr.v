(** C14-C17: communication buffers and pointers, matching of messages, owner of a minimum, buffer indices. *)
From Verif Require Import Util SharedProofs Distr.

(* ------------------------------------------------------------------ *)
(** ** Specification *)

(** A communication channel: local time group, adjacent rank, adjacent time group, number of faces. *)
Record chan := mkChan { cTg : nat; cRa : nat; cTgAd : nat; cN : nat }.

(** The communication structure as stored in the mesh. *)
Definition encode (chs : list chan) : list nat :=
  length chs :: flat_map (fun c => [cTg c; cRa c; cTgAd c; cN c]) chs.

(** Face [i] of channel [ch] is entry [faceNo chs ch i] of the lists of faces. *)
Definition faceNo (chs : list chan) (ch i : nat) : nat := list_sum (map cN (firstn ch chs)) + i.
Definition nFaces (chs : list chan) : nat := list_sum (map cN chs).

(** lists of elements and local faces: valid ids, no face twice *)
Definition validFaces (nEls nElFas n : nat) (el fa : list nat) : Prop :=
  length el = n /\ length fa = n /\
  (forall k e, nth_error el k = Some e -> e < nEls) /\ (forall k f, nth_error fa k = Some f -> f < nElFas) /\
  (forall k k', k < n -> k' < n -> nth_error el k = nth_error el k' -> nth_error fa k = nth_error fa k' -> k = k').

Definition ptr (ptrs : list (list (option nat))) (po pos : nat) : res (option nat) := row <- rd ptrs po ;; rd row pos.

(** Face [i] of channel [ch] uses the bytes [b, e) through the pointers [po]; [bytes]: bytes per face of a channel. *)
Definition slot (bytes : chan -> nat) (ptrs : list (list (option nat))) (nElFas : nat) (chs : list chan) (el fa : list nat)
  (po ch i b e : nat) : Prop :=
  exists c x f, nth_error chs ch = Some c /\ i < cN c /\ nth_error el (faceNo chs ch i) = Some x /\
    nth_error fa (faceNo chs ch i) = Some f /\ ptr ptrs po (x * nElFas + f) = Ok (Some b) /\ e = b + bytes c.

(** A sender whose group takes larger steps sends two integrated sets of data per step, see C02 and C29. *)
Definition sendBytes (nByFa : nat) (c : chan) : nat := if cTgAd c <? cTg c then 2 * nByFa else nByFa.
Definition recvBytes (nByFa : nat) (c : chan) : nat := if cTg c <? cTgAd c then 2 * nByFa else nByFa.

(* ------------------------------------------------------------------ *)
(** ** Proofs about the set-up *)

Lemma rd_encode chs ch c j x : nth_error chs ch = Some c -> nth_error [cTg c; cRa c; cTgAd c; cN c] j = Some x ->
  rd (encode chs) (1 + ch * 4 + j) = Ok x.
Proof.
  intros Hc Hj. apply rd_some. unfold encode. cbn [Nat.add nth_error]. revert ch Hc. induction chs as [|c' chs IH]; intros [|ch] Hc; try discriminate.
  - injection Hc as ->. cbn [flat_map]. rewrite nth_error_app1; [exact Hj|]. apply nth_error_Some. cbn [Nat.mul Nat.add]. rewrite Hj. discriminate.
  - cbn [flat_map]. rewrite nth_error_app2; cbn [length]; [|lia]. replace (S ch * 4 + j - 4) with (ch * 4 + j) by lia. apply IH. exact Hc.
Qed.

Definition faces (chs : list chan) : list chan := flat_map (fun c => repeat c (cN c)) chs.
Definition offs (bytes : chan -> nat) (chs : list chan) (k : nat) : nat := list_sum (map bytes (firstn k (faces chs))).
Definition faceC (chs : list chan) (k : nat) : chan := nth k (faces chs) (mkChan 0 0 0 0).

Lemma faces_length chs : length (faces chs) = nFaces chs.
Proof. unfold faces, nFaces. induction chs as [|c chs IH]; [reflexivity|]. cbn [flat_map map]. rewrite app_length, repeat_length, list_sum_cons. lia. Qed.
Lemma faceNo_S chs ch c : nth_error chs ch = Some c -> faceNo chs (S ch) 0 = faceNo chs ch (cN c).
Proof.
  intros H. unfold faceNo. rewrite (firstn_S_snoc _ _ _ H), map_app, list_sum_app. cbn. lia.
Qed.
Lemma faceNo_split chs ch c i : nth_error chs ch = Some c -> i <= cN c ->
  firstn (faceNo chs ch i) (faces chs) = faces (firstn ch chs) ++ repeat c i.
Proof.
  intros H Hi. unfold faceNo. revert ch H. induction chs as [|c' chs IH]; intros [|ch] H; try discriminate; cbn [firstn map nth_error] in *.
  - injection H as ->. cbn [list_sum fold_right Nat.add faces flat_map app]. rewrite firstn_app, repeat_length.
    replace (i - cN c) with 0 by lia. cbn [firstn]. rewrite app_nil_r.
    assert (R : forall a b, firstn a (repeat c (a + b)) = repeat c a) by (induction a; cbn; congruence).
    replace (cN c) with (i + (cN c - i)) by lia. apply R.
  - rewrite list_sum_cons. cbn [faces flat_map]. fold (faces chs) (faces (firstn ch chs)).
    rewrite <- Nat.add_assoc, firstn_app, repeat_length, firstn_all2 by (rewrite repeat_length; lia).
    replace (cN c' + (list_sum (map cN (firstn ch chs)) + i) - cN c') with (list_sum (map cN (firstn ch chs)) + i) by lia.
    rewrite IH by auto. now rewrite app_assoc.
Qed.
Lemma faceC_at chs ch c i : nth_error chs ch = Some c -> i < cN c -> nth_error (faces chs) (faceNo chs ch i) = Some c.
Proof.
  intros H Hi. assert (E : firstn (S (faceNo chs ch i)) (faces chs) = firstn (faceNo chs ch i) (faces chs) ++ [c]).
  { replace (S (faceNo chs ch i)) with (faceNo chs ch (S i)) by (unfold faceNo; lia).
    rewrite !(faceNo_split chs ch c) by (auto; lia). rewrite <- app_assoc. f_equal. replace (S i) with (i + 1) by lia. apply repeat_app. }
  destruct (nth_error (faces chs) (faceNo chs ch i)) as [c'|] eqn:E'.
  - rewrite (firstn_S_snoc _ _ _ E') in E. apply app_inv_head in E. congruence.
  - apply nth_error_None in E'. apply (f_equal (@length _)) in E. rewrite app_length, !firstn_length in E. cbn [length] in E. lia.
Qed.
Lemma faceC_at' chs ch c i : nth_error chs ch = Some c -> i < cN c -> faceC chs (faceNo chs ch i) = c.
Proof. intros H Hi. unfold faceC. now rewrite (nth_error_nth _ _ _ (faceC_at chs ch c i H Hi)). Qed.
Lemma faceNo_lt chs ch c i : nth_error chs ch = Some c -> i < cN c -> faceNo chs ch i < nFaces chs.
Proof. intros H Hi. rewrite <- faces_length. apply nth_error_Some. now rewrite (faceC_at chs ch c i H Hi). Qed.
Lemma offs_S b chs k : k < nFaces chs -> offs b chs (S k) = offs b chs k + b (faceC chs k).
Proof.
  intros Hk. unfold offs, faceC. destruct (nth_error (faces chs) k) as [c|] eqn:E; [|apply nth_error_None in E; rewrite faces_length in E; lia].
  rewrite (firstn_S_snoc _ _ _ E), map_app, list_sum_app, (nth_error_nth _ _ _ E). cbn [map]. rewrite list_sum_cons. change (list_sum []) with 0. lia.
Qed.
Lemma offs_mono b chs k k' : k <= k' -> offs b chs k <= offs b chs k'.
Proof.
  intros H. unfold offs.
  rewrite <- (firstn_skipn k (firstn k' (faces chs))). rewrite firstn_firstn, Nat.min_l by lia. rewrite map_app, list_sum_app. lia.
Qed.
Lemma offs_at b chs ch c i : nth_error chs ch = Some c -> i <= cN c ->
  offs b chs (faceNo chs ch i) = offs b chs (faceNo chs ch 0) + i * b c.
Proof.
  intros H Hi. unfold offs. rewrite !(faceNo_split chs ch c) by (auto; lia). rewrite !map_app, !list_sum_app. cbn [repeat map].
  rewrite map_repeat', list_sum_repeat. change (list_sum []) with 0. lia.
Qed.
Lemma faceNo_inj chs ch c i ch' c' i' : nth_error chs ch = Some c -> i < cN c -> nth_error chs ch' = Some c' -> i' < cN c' ->
  faceNo chs ch i = faceNo chs ch' i' -> ch = ch' /\ i = i'.
Proof.
  intros H Hi H' Hi' E.
  assert (MN : forall a b x, a < b -> nth_error chs a = Some x -> faceNo chs a (cN x) <= faceNo chs b 0).
  { intros a b x L Hx. rewrite <- (faceNo_S _ _ _ Hx). unfold faceNo. replace b with (S a + (b - S a)) by lia.
    generalize (b - S a) as d. intros d. rewrite !Nat.add_0_r.
    rewrite <- (firstn_skipn (S a) (firstn (S a + d) chs)). rewrite firstn_firstn, Nat.min_l by lia. rewrite map_app, list_sum_app. lia. }
  destruct (lt_eq_lt_dec ch ch') as [[L|L]|L].
  - pose proof (MN _ _ _ L H). unfold faceNo in *. lia.
  - subst ch'. unfold faceNo in E. split; auto. lia.
  - pose proof (MN _ _ _ L H'). unfold faceNo in *. lia.
Qed.
Lemma faceNo_surj chs k : k < nFaces chs -> exists ch c i, nth_error chs ch = Some c /\ i < cN c /\ k = faceNo chs ch i.
Proof.
  unfold nFaces, faceNo. revert k. induction chs as [|c chs IH]; intros k Hk; [cbn in Hk; lia|]. cbn [map] in Hk. rewrite list_sum_cons in Hk.
  destruct (lt_dec k (cN c)) as [L|L].
  - exists 0, c, k. cbn. auto.
  - destruct (IH (k - cN c) ltac:(lia)) as (ch & c' & i & H1 & H2 & H3). exists (S ch), c', i. cbn [nth_error firstn map]. rewrite list_sum_cons. repeat split; auto. lia.
Qed.

(** pointer arrays *)
Section Ptrs.
Variables (nP L : nat) (posf : nat -> nat) (val : nat -> nat -> nat).
Definition PInv (K : nat) (ptrs : list (list (option nat))) : Prop :=
  length ptrs = nP /\ forall po, po < nP -> exists row, nth_error ptrs po = Some row /\ length row = L /\
    (forall k, k < K -> nth_error row (posf k) = Some (Some (val po k))) /\
    (forall pos, pos < L -> (forall k, k < K -> posf k <> pos) -> nth_error row pos = Some None).
Lemma PInv0 : PInv 0 (repeat (repeat None L) nP).
Proof.
  split; [apply repeat_length|]. intros po Hp. exists (repeat None L). split; [|split; [apply repeat_length|split; [lia|]]].
  - rewrite (nth_error_nth' _ []) by (rewrite repeat_length; lia). f_equal. eapply repeat_spec, nth_In. rewrite repeat_length. lia.
  - intros pos Hpos _. rewrite (nth_error_nth' _ None) by (rewrite repeat_length; lia). now rewrite nth_repeat.
Qed.
Lemma setPtrs_ok K ptrs pos v : PInv K ptrs -> pos = posf K -> pos < L -> (forall k, k < K -> posf k <> pos) ->
  (forall po, po < nP -> v po = val po K) -> exists ptrs', setPtrs ptrs pos v = Ok ptrs' /\ PInv (S K) ptrs'.
Proof.
  intros (L0 & H) Hp HL HD HV. unfold setPtrs.
  loop (fun j (p : list (list (option nat))) => length p = nP /\ (forall po, j <= po -> nth_error p po = nth_error ptrs po) /\
    forall po, po < j -> exists row, nth_error ptrs po = Some row /\ nth_error p po = Some (upd row pos (Some (val po K)))) as p E (L1 & _ & H1).
  - lia.
  - repeat split; auto. intros; lia.
  - intros j p Hj (L1 & H2 & H3). rewrite L0 in Hj. destruct (H j ltac:(lia)) as (row & R1 & R2 & _).
    rewrite (rd_some _ j row) by (rewrite H2; auto). cbn [bind]. rewrite wr_ok by lia. cbn [bind]. rewrite wr_ok by lia.
    eexists. split; [reflexivity|]. rewrite length_upd. split; auto. split.
    + intros po Hpo. rewrite nth_error_upd_ne by lia. apply H2. lia.
    + intros po Hpo. destruct (Nat.eq_dec po j) as [->|].
      * exists row. split; auto. rewrite nth_error_upd_eq by lia. rewrite HV by lia. reflexivity.
      * rewrite nth_error_upd_ne by lia. apply H3. lia.
  - exists p. split; auto. split; auto. intros po Hpo. destruct (H1 po ltac:(lia)) as (row & R1 & R2).
    destruct (H po Hpo) as (row' & Q1 & Q2 & Q3 & Q4). assert (row' = row) as -> by congruence.
    eexists. split; [exact R2|]. rewrite length_upd. split; auto. split.
    + intros k Hk. destruct (Nat.eq_dec k K) as [->|].
      * rewrite <- Hp. rewrite nth_error_upd_eq by lia. reflexivity.
      * rewrite nth_error_upd_ne; [apply Q3; lia|]. apply not_eq_sym. apply HD. lia.
    + intros q Hq Hn. rewrite nth_error_upd_ne; [apply Q4; auto|]. rewrite Hp. apply not_eq_sym. apply not_eq_sym, Hn. lia.
Qed.
End Ptrs.

Definition faPos (nElFas : nat) (el fa : list nat) (k : nat) : nat := nth k el 0 * nElFas + nth k fa 0.

Lemma faPos_ok nEls nElFas n el fa : validFaces nEls nElFas n el fa ->
  forall k, k < n -> faPos nElFas el fa k < nEls * nElFas /\
    exists e f, nth_error el k = Some e /\ nth_error fa k = Some f /\ faPos nElFas el fa k = e * nElFas + f.
Proof.
  intros (V1 & V2 & V3 & V4 & V5) k Hk. unfold faPos.
  destruct (nth_error el k) as [e|] eqn:Ee; [|apply nth_error_None in Ee; lia].
  destruct (nth_error fa k) as [f|] eqn:Ef; [|apply nth_error_None in Ef; lia].
  rewrite (nth_error_nth _ _ _ Ee), (nth_error_nth _ _ _ Ef). specialize (V3 _ _ Ee). specialize (V4 _ _ Ef). split; [nia|eauto].
Qed.
Lemma faPos_inj nEls nElFas n el fa : validFaces nEls nElFas n el fa ->
  forall k k', k < n -> k' < n -> faPos nElFas el fa k = faPos nElFas el fa k' -> k = k'.
Proof.
  intros V k k' Hk Hk' E. destruct (faPos_ok _ _ _ _ _ V k Hk) as (_ & e & f & E1 & E2 & E3).
  destruct (faPos_ok _ _ _ _ _ V k' Hk') as (_ & e' & f' & F1 & F2 & F3). destruct V as (V1 & V2 & V3 & V4 & V5).
  pose proof (V4 _ _ E2). pose proof (V4 _ _ F2). rewrite E3, F3 in E. assert (e = e') as -> by (destruct (lt_eq_lt_dec e e') as [[?|?]|?]; nia). assert (f = f') as -> by lia.
  apply V5; auto; congruence.
Qed.

Section Init.
Variables (nTgs nElFas nEls nByFa : nat) (chs : list chan) (sendFa sendEl recvFa recvEl : list nat) (nCB : nat).
Hypothesis VS : validFaces nEls nElFas (nFaces chs) sendEl sendFa.
Hypothesis VR : validFaces nEls nElFas (nFaces chs) recvEl recvFa.
Hypothesis CB : nCB = 1 \/ nCB = 2.

Let sB := sendBytes nByFa.
Let rB := recvBytes nByFa.
Let size b := offs b chs (nFaces chs).
Let nPR := if nCB =? 2 then 4 else 1.
Let valS po k := (po mod 2) * size sB + offs sB chs k.
Let valR po k := recvPtrBuf (cTg (faceC chs k)) (cTgAd (faceC chs k)) po * size rB + offs rB chs k.
Let PS := PInv nCB (nEls * nElFas) (faPos nElFas sendEl sendFa) valS.
Let PR := PInv nPR (nEls * nElFas) (faPos nElFas recvEl recvFa) valR.

Definition LInv (K first : nat) (s : lst) : Prop :=
  offSend s = offs sB chs K /\ offRecv s = offs rB chs K /\ lFirst s = first /\ PS K (lSend s) /\ PR K (lRecv s).

Lemma initFaces_ok ch c s : nth_error chs ch = Some c -> LInv (faceNo chs ch 0) (faceNo chs ch 0) s ->
  exists s', initFaces nElFas nByFa (size sB) (size rB) (cTg c) (cTgAd c) (cN c) sendFa sendEl recvFa recvEl s = Ok s' /\
    LInv (faceNo chs (S ch) 0) (faceNo chs ch 0) s'.
Proof.
  intros Hc I. unfold initFaces. rewrite (faceNo_S _ _ _ Hc).
  loop (fun i s => LInv (faceNo chs ch i) (faceNo chs ch 0) s) as s' E H.
  - lia.
  - exact I.
  - clear s I. intros i s Hi (I1 & I2 & I3 & I4 & I5).
    pose proof (faceNo_lt _ _ _ _ Hc (proj2 Hi)) as LT.
    assert (EK : lFirst s + i = faceNo chs ch i) by (rewrite I3; unfold faceNo; lia). rewrite EK.
    set (K := faceNo chs ch i) in *.
    destruct (faPos_ok _ _ _ _ _ VS K LT) as (S1 & e & f & S2 & S3 & S4).
    destruct (faPos_ok _ _ _ _ _ VR K LT) as (R1 & e' & f' & R2 & R3 & R4).
    rewrite (rd_some _ _ _ S3), (rd_some _ _ _ S2), (rd_some _ _ _ R3), (rd_some _ _ _ R2). cbn [bind].
    assert (FC : faceC chs K = c) by (apply faceC_at'; tauto).
    destruct (setPtrs_ok nCB (nEls * nElFas) (faPos nElFas sendEl sendFa) valS K (lSend s) (e * nElFas + f)
      (fun po => (po mod 2) * size sB + offSend s)) as (p1 & E1 & Q1); auto; try lia.
    { intros k Hk. rewrite <- S4. intros Ek. apply (faPos_inj _ _ _ _ _ VS) in Ek; lia. }
    { intros po Hpo. unfold valS. now rewrite I1. }
    destruct (setPtrs_ok nPR (nEls * nElFas) (faPos nElFas recvEl recvFa) valR K (lRecv s) (e' * nElFas + f')
      (fun po => recvPtrBuf (cTg c) (cTgAd c) po * size rB + offRecv s)) as (p2 & E2 & Q2); auto; try lia.
    { intros k Hk. rewrite <- R4. intros Ek. apply (faPos_inj _ _ _ _ _ VR) in Ek; lia. }
    { intros po Hpo. unfold valR. now rewrite I2, FC. }
    rewrite E1. cbn [bind]. rewrite E2. cbn [bind]. eexists. split; [reflexivity|].
    replace (faceNo chs ch (S i)) with (S K) by (unfold K, faceNo; lia).
    split; [|split; [|split; [|split]]]; cbn [offSend offRecv lFirst lSend lRecv]; auto.
    + rewrite offs_S, FC, I1 by auto. unfold sB, sendBytes, sendLen. destruct (cTgAd c <? cTg c); lia.
    + rewrite offs_S, FC, I2 by auto. unfold rB, recvBytes, recvLen. destruct (cTg c <? cTgAd c); lia.
  - exists s'. auto.
Qed.

Definition sendMsg (ch : nat) (c : chan) : msg :=
  mkMsg (cTg c) (cTgAd c) (cRa c) (cTg c * nTgs + cTgAd c) (cN c * sB c) (offs sB chs (faceNo chs ch 0)).
Definition recvMsg (ch : nat) (c : chan) : msg :=
  mkMsg (cTg c) (cTgAd c) (cRa c) (cTgAd c * nTgs + cTg c) (cN c * rB c) (offs rB chs (faceNo chs ch 0)).

Lemma size_firstn b k c : nth_error chs k = Some c -> offs b chs (faceNo chs (S k) 0) = offs b chs (faceNo chs k 0) + cN c * b c.
Proof. intros H. rewrite (faceNo_S _ _ _ H). apply offs_at; auto. Qed.

Lemma distInit_ok : exists d, distInit nTgs nElFas nEls nByFa (Some (encode chs)) sendFa sendEl recvFa recvEl nCB = Ok d /\
  dTgs d = nTgs /\ dCB d = nCB /\ dSendSize d = size sB /\ dRecvSize d = size rB /\ dNSeRe d = map cN chs /\
  PS (nFaces chs) (dSendPtrs d) /\ PR (nFaces chs) (dRecvPtrs d) /\
  length (dSendMsgs d) = length chs /\ length (dRecvMsgs d) = length chs /\
  (forall ch c, nth_error chs ch = Some c -> nth_error (dSendMsgs d) ch = Some (sendMsg ch c) /\ nth_error (dRecvMsgs d) ch = Some (recvMsg ch c)).
Proof.
  unfold distInit.
  assert (EC : check ((nCB =? 1) || (nCB =? 2)) = Ok tt) by (unfold check; destruct CB as [-> | ->]; reflexivity).
  rewrite EC. cbn [bind]. replace (rd (encode chs) 0) with (Ok (length chs)) by reflexivity. cbn [bind].
  assert (FN : faceNo chs (length chs) 0 = nFaces chs).
  { unfold faceNo, nFaces. rewrite firstn_all. lia. }
  loop (fun k st => st = (offs sB chs (faceNo chs k 0), offs rB chs (faceNo chs k 0), map cN (firstn k chs))) as st E1 H1.
  - lia.
  - reflexivity.
  - intros k st Hk ->. destruct (nth_error chs k) as [c|] eqn:Ec; [|apply nth_error_None in Ec; lia].
    rewrite (rd_encode chs k c 0 _ Ec eq_refl), (rd_encode chs k c 2 _ Ec eq_refl), (rd_encode chs k c 3 _ Ec eq_refl). cbn [bind]. eexists. split; [reflexivity|].
    rewrite !(size_firstn _ _ _ Ec), (firstn_S_snoc _ _ _ Ec), map_app. cbn [map]. unfold sB, rB, sendBytes, recvBytes.
    destruct (cTgAd c <? cTg c), (cTg c <? cTgAd c); do 2 f_equal; f_equal; lia.
  - rewrite H1, FN, firstn_all. clear H1 st. cbv iota beta. fold nPR. fold (size sB) (size rB).
    loop (fun k (st : lst * list msg * list msg) => let '(s, sm, rm) := st in
      LInv (faceNo chs k 0) (faceNo chs k 0) s /\ length sm = k /\ length rm = k /\
      (forall ch c, ch < k -> nth_error chs ch = Some c -> nth_error sm ch = Some (sendMsg ch c) /\ nth_error rm ch = Some (recvMsg ch c)))
      as ((s, sm), rm) E (H1 & H2 & H3 & H4).
    + lia.
    + split; [|repeat split; auto; intros; lia].
      split; [reflexivity|split; [reflexivity|split; [reflexivity|split; apply PInv0]]].
    + intros k ((s, sm), rm) Hk (I1 & I2 & I3 & I4). destruct (nth_error chs k) as [c|] eqn:Ec; [|apply nth_error_None in Ec; lia].
      rewrite (rd_encode chs k c 0 _ Ec eq_refl), (rd_encode chs k c 1 _ Ec eq_refl), (rd_encode chs k c 2 _ Ec eq_refl), (rd_encode chs k c 3 _ Ec eq_refl). cbn [bind].
      destruct (initFaces_ok k c s Ec I1) as (s' & E' & I'). rewrite E'. cbn [bind]. eexists. split; [reflexivity|]. cbv iota beta.
      destruct I1 as (J1 & J2 & J3 & J4 & J5). destruct I' as (J1' & J2' & J3' & J4' & J5').
      split; [|rewrite !app_length; cbn [length]; split; [lia|split; [lia|]]].
      * split; [exact J1'|split; [exact J2'|split; [|split; [exact J4'|exact J5']]]]. cbn [lFirst]. rewrite J3', (faceNo_S _ _ _ Ec). unfold faceNo. lia.
      * intros ch c' Hch Hc'. destruct (Nat.eq_dec ch k) as [->|].
        -- assert (c' = c) as -> by congruence. rewrite !nth_error_app2 by lia. rewrite I2, I3, Nat.sub_diag. cbn [nth_error].
           unfold sendMsg, recvMsg. rewrite J1, J2. split; do 2 f_equal; unfold sB, rB, sendBytes, recvBytes; destruct (_ <? _); lia.
        -- rewrite !nth_error_app1 by lia. apply I4; auto. lia.
    + eexists. split; [reflexivity|]. cbn [dTgs dCB dSendSize dRecvSize dNSeRe dSendPtrs dRecvPtrs dSendMsgs dRecvMsgs].
      rewrite FN in H1. destruct H1 as (J1 & J2 & J3 & J4 & J5). repeat (split; [solve [auto]|]).
      intros ch c Hc. apply H4; auto. apply nth_error_Some. congruence.
Qed.
End Init.

(* ------------------------------------------------------------------ *)
(** ** C14 *)

(** [d] results from the set-up for the channels [chs] and the given lists of faces. *)
Record setup (nTgs nElFas nEls nByFa : nat) (chs : list chan) (sendFa sendEl recvFa recvEl : list nat) (nCB : nat) (d : dist) : Prop := {
  u_send : validFaces nEls nElFas (nFaces chs) sendEl sendFa;
  u_recv : validFaces nEls nElFas (nFaces chs) recvEl recvFa;
  u_cb : nCB = 1 \/ nCB = 2;
  u_init : distInit nTgs nElFas nEls nByFa (Some (encode chs)) sendFa sendEl recvFa recvEl nCB = Ok d
}.

(** The set-up succeeds for all valid lists of faces. *)
Theorem C14_setup_succeeds nTgs nElFas nEls nByFa chs sendFa sendEl recvFa recvEl nCB :
  validFaces nEls nElFas (nFaces chs) sendEl sendFa -> validFaces nEls nElFas (nFaces chs) recvEl recvFa -> nCB = 1 \/ nCB = 2 ->
  exists d, setup nTgs nElFas nEls nByFa chs sendFa sendEl recvFa recvEl nCB d.
Proof.
  intros VS VR CB. destruct (distInit_ok nTgs nElFas nEls nByFa chs sendFa sendEl recvFa recvEl nCB VS VR CB) as (d & E & _).
  exists d. split; auto.
Qed.
Print Assumptions C14_setup_succeeds.

(** What the theorem claims for one direction: [bytes] per face, [buf c po]: communication buffer of the pointers [po],
    [size] of one communication buffer, [nCB] buffers, [ms] messages. *)
Definition slots_ok (bytes : chan -> nat) (buf : chan -> nat -> nat) (size nCB nP : nat) (ptrs : list (list (option nat))) (ms : list msg)
  (nEls nElFas : nat) (chs : list chan) (el fa : list nat) : Prop :=
  let sl := slot bytes ptrs nElFas chs el fa in
  (* every face of every channel has a slot *)
  (forall po ch c i, po < nP -> nth_error chs ch = Some c -> i < cN c -> exists b e, sl po ch i b e) /\
  (* which lies inside of its communication buffer *)
  (forall po ch c i b e, nth_error chs ch = Some c -> sl po ch i b e -> po < nP ->
     buf c po < nCB /\ buf c po * size <= b /\ e <= buf c po * size + size) /\
  (* the slots of different faces are disjoint *)
  (forall po ch i b e ch' i' b' e', po < nP -> sl po ch i b e -> sl po ch' i' b' e' -> (ch, i) <> (ch', i') -> e <= b' \/ e' <= b) /\
  (* the slots of a channel form exactly the range of its message *)
  (forall po ch c m x, po < nP -> nth_error chs ch = Some c -> nth_error ms ch = Some m ->
     (buf c po * size + mOff m <= x < buf c po * size + mOff m + mSize m <-> exists i b e, sl po ch i b e /\ b <= x < e)) /\
  (* faces which do not communicate have no pointer *)
  (forall po x f, po < nP -> x < nEls -> f < nElFas -> (forall k, ~ (nth_error el k = Some x /\ nth_error fa k = Some f)) ->
     ptr ptrs po (x * nElFas + f) = Ok None).

Lemma slots_ok_gen bytes buf nCB nP ptrs ms nEls nElFas chs el fa val :
  validFaces nEls nElFas (nFaces chs) el fa ->
  (forall po k, val po k = buf (faceC chs k) po * offs bytes chs (nFaces chs) + offs bytes chs k) ->
  (forall c po, po < nP -> buf c po < nCB) ->
  PInv nP (nEls * nElFas) (faPos nElFas el fa) val (nFaces chs) ptrs ->
  (forall ch c, nth_error chs ch = Some c -> exists m, nth_error ms ch = Some m /\ mOff m = offs bytes chs (faceNo chs ch 0) /\ mSize m = cN c * bytes c) ->
  slots_ok bytes buf (offs bytes chs (nFaces chs)) nCB nP ptrs ms nEls nElFas chs el fa.
Proof.
  intros V HV HB (PL & PI) HM. set (size := offs bytes chs (nFaces chs)) in *.
  assert (PT : forall po k, po < nP -> k < nFaces chs -> exists x f, nth_error el k = Some x /\ nth_error fa k = Some f /\
    ptr ptrs po (x * nElFas + f) = Ok (Some (val po k))).
  { intros po k Hp Hk. destruct (faPos_ok _ _ _ _ _ V k Hk) as (_ & x & f & E1 & E2 & E3). exists x, f. repeat split; auto.
    destruct (PI po Hp) as (row & R1 & R2 & R3 & _). unfold ptr. rewrite (rd_some _ _ _ R1). cbn [bind]. apply rd_some. rewrite <- E3. now apply R3. }
  assert (SL : forall po ch i b e, po < nP -> slot bytes ptrs nElFas chs el fa po ch i b e ->
    exists c, nth_error chs ch = Some c /\ i < cN c /\ b = val po (faceNo chs ch i) /\ e = b + bytes c /\ faceC chs (faceNo chs ch i) = c).
  { intros po ch i b e Hp (c & x & f & E1 & E2 & E3 & E4 & E5 & E6). exists c. repeat split; auto; [|now apply faceC_at'].
    destruct (PT po (faceNo chs ch i) Hp (faceNo_lt _ _ _ _ E1 E2)) as (x' & f' & F1 & F2 & F3).
    assert (x' = x) as -> by congruence. assert (f' = f) as -> by congruence. congruence. }
  assert (LE : forall k, k < nFaces chs -> offs bytes chs k + bytes (faceC chs k) <= size).
  { intros k Hk. rewrite <- offs_S by auto. apply offs_mono. lia. }
  split; [|split; [|split; [|split]]].
  - intros po ch c i Hp Hc Hi. destruct (PT po (faceNo chs ch i) Hp (faceNo_lt _ _ _ _ Hc Hi)) as (x & f & F1 & F2 & F3).
    exists (val po (faceNo chs ch i)), (val po (faceNo chs ch i) + bytes c). exists c, x, f. auto 10.
  - intros po ch c i b e Hc Hs Hp. destruct (SL _ _ _ _ _ Hp Hs) as (c' & E1 & E2 & E3 & E4 & E5). assert (c' = c) as -> by congruence.
    rewrite HV, E5 in E3. pose proof (LE _ (faceNo_lt _ _ _ _ E1 E2)) as L. rewrite E5 in L. specialize (HB c po Hp). split; [auto|lia].
  - intros po ch i b e ch' i' b' e' Hp Hs Hs' Ne.
    destruct (SL _ _ _ _ _ Hp Hs) as (c & E1 & E2 & E3 & E4 & E5). destruct (SL _ _ _ _ _ Hp Hs') as (c' & F1 & F2 & F3 & F4 & F5).
    rewrite HV, E5 in E3. rewrite HV, F5 in F3. pose proof (faceNo_lt _ _ _ _ E1 E2) as G1. pose proof (faceNo_lt _ _ _ _ F1 F2) as G2.
    pose proof (LE _ G1) as L1. pose proof (LE _ G2) as L2. rewrite E5 in L1. rewrite F5 in L2.
    set (k := faceNo chs ch i) in *. set (k' := faceNo chs ch' i') in *.
    assert (Nk : k <> k'). { intros Ek. apply Ne. destruct (faceNo_inj _ _ _ _ _ _ _ E1 E2 F1 F2 Ek) as (-> & ->). reflexivity. }
    destruct (lt_eq_lt_dec (buf c po) (buf c' po)) as [[L|L]|L].
    + left. nia.
    + rewrite <- L in F3. destruct (lt_dec k k') as [Lk|Lk].
      * left. pose proof (offs_mono bytes chs (S k) k' ltac:(lia)) as M. rewrite offs_S, E5 in M by auto. lia.
      * right. pose proof (offs_mono bytes chs (S k') k ltac:(lia)) as M. rewrite offs_S, F5 in M by auto. lia.
    + right. nia.
  - intros po ch c m x Hp Hc Hm. destruct (HM ch c Hc) as (m' & M1 & M2 & M3). assert (m' = m) as -> by congruence.
    rewrite M2, M3. set (o := offs bytes chs (faceNo chs ch 0)).
    assert (VL : forall i, i < cN c -> val po (faceNo chs ch i) = buf c po * size + (o + i * bytes c)).
    { intros i Hi. rewrite HV, (faceC_at' _ _ _ _ Hc Hi). rewrite (offs_at _ _ _ _ _ Hc) by lia. reflexivity. }
    split.
    + intros Hx. set (B := bytes c) in *. assert (0 < B) by nia. set (y := x - (buf c po * size + o)).
      pose proof (Nat.div_mod_eq y B) as DM. pose proof (Nat.mod_upper_bound y B ltac:(lia)) as MB.
      assert (HI : y / B < cN c) by (apply Nat.div_lt_upper_bound; lia).
      destruct (PT po (faceNo chs ch (y / B)) Hp (faceNo_lt _ _ _ _ Hc HI)) as (e & f & F1 & F2 & F3).
      exists (y / B), (val po (faceNo chs ch (y / B))), (val po (faceNo chs ch (y / B)) + B). split.
      * exists c, e, f. auto 10.
      * rewrite VL by auto. assert (B * (y / B) = y / B * B) by lia. lia.
    + intros (i & b & e & Hs & Hx). destruct (SL _ _ _ _ _ Hp Hs) as (c' & E1 & E2 & E3 & E4 & E5). assert (c' = c) as -> by congruence.
      rewrite VL in E3 by auto. assert (i * bytes c + bytes c <= cN c * bytes c) by nia. lia.
  - intros po x f Hp Hx Hf Hn. destruct (PI po Hp) as (row & R1 & R2 & R3 & R4). unfold ptr. rewrite (rd_some _ _ _ R1). cbn [bind].
    apply rd_some. apply R4; [nia|]. intros k Hk Ek. destruct (faPos_ok _ _ _ _ _ V k Hk) as (_ & x' & f' & E1 & E2 & E3).
    rewrite E3 in Ek. destruct V as (_ & _ & _ & V4 & _). specialize (V4 _ _ E2).
    assert (x' = x) as -> by (destruct (lt_eq_lt_dec x x') as [[?|?]|?]; nia). assert (f' = f) as -> by lia. apply (Hn k). auto.
Qed.

(** Send buffers: pointers [po] refer to communication buffer [po]. *)
Theorem C14_send_slots nTgs nElFas nEls nByFa chs sendFa sendEl recvFa recvEl nCB d :
  setup nTgs nElFas nEls nByFa chs sendFa sendEl recvFa recvEl nCB d ->
  slots_ok (sendBytes nByFa) (fun _ po => po) (dSendSize d) nCB nCB (dSendPtrs d) (dSendMsgs d) nEls nElFas chs sendEl sendFa.
Proof.
  intros [VS VR CB E]. destruct (distInit_ok nTgs nElFas nEls nByFa chs sendFa sendEl recvFa recvEl nCB VS VR CB) as (d' & E' & _ & _ & S1 & _ & _ & P1 & _ & _ & _ & M).
  assert (d' = d) as -> by congruence. rewrite S1.
  eapply (slots_ok_gen (sendBytes nByFa) (fun _ po => po) nCB nCB _ _ nEls nElFas chs sendEl sendFa
    (fun po k => po * offs (sendBytes nByFa) chs (nFaces chs) + offs (sendBytes nByFa) chs k)); auto.
  - destruct P1 as (PL & PI). split; auto. intros po Hp. destruct (PI po Hp) as (row & R1 & R2 & R3 & R4). exists row. repeat split; auto.
    intros k Hk. rewrite R3 by auto. rewrite Nat.mod_small by lia. reflexivity.
  - intros ch c Hc. destruct (M ch c Hc) as (M1 & _). eexists. split; [exact M1|]. split; reflexivity.
Qed.
Print Assumptions C14_send_slots.

(** Receive buffers: pointers [po] refer to the communication buffer of update [po] (see C17). *)
Theorem C14_recv_slots nTgs nElFas nEls nByFa chs sendFa sendEl recvFa recvEl nCB d :
  setup nTgs nElFas nEls nByFa chs sendFa sendEl recvFa recvEl nCB d ->
  slots_ok (recvBytes nByFa) (fun c po => recvPtrBuf (cTg c) (cTgAd c) po) (dRecvSize d) nCB (nCB * nCB) (dRecvPtrs d) (dRecvMsgs d)
    nEls nElFas chs recvEl recvFa.
Proof.
  intros [VS VR CB E]. destruct (distInit_ok nTgs nElFas nEls nByFa chs sendFa sendEl recvFa recvEl nCB VS VR CB) as (d' & E' & _ & _ & _ & S1 & _ & _ & P1 & _ & _ & M).
  assert (d' = d) as -> by congruence. rewrite S1.
  assert (NP : (if nCB =? 2 then 4 else 1) = nCB * nCB) by (destruct CB as [-> | ->]; reflexivity). rewrite NP in P1.
  eapply (slots_ok_gen (recvBytes nByFa) (fun c po => recvPtrBuf (cTg c) (cTgAd c) po) nCB (nCB * nCB)); auto.
  - reflexivity.
  - intros c po Hp. unfold recvPtrBuf. destruct CB as [-> | ->].
    + assert (po = 0) as -> by lia. destruct (_ <=? _); cbn; lia.
    + destruct (_ <=? _); apply Nat.mod_upper_bound; lia.
  - exact P1.
  - intros ch c Hc. destruct (M ch c Hc) as (_ & M1). eexists. split; [exact M1|]. split; reflexivity.
Qed.
Print Assumptions C14_recv_slots.

(** Without communication structure (one rank) the set-up succeeds and no face has a pointer. *)
Remark C14_no_comm nTgs nElFas nEls nByFa : exists d,
  distInit nTgs nElFas nEls nByFa None [] [] [] [] 1 = Ok d /\ dSendPtrs d = [repeat None (nEls * nElFas)] /\ dRecvPtrs d = [repeat None (nEls * nElFas)].
Proof. eexists. split; [reflexivity|]. split; reflexivity. Qed.

(* ------------------------------------------------------------------ *)
(** ** C15 *)

Definition mirror (rank rank' : nat) (c c' : chan) : Prop :=
  cTg c' = cTgAd c /\ cTgAd c' = cTg c /\ cN c' = cN c /\ cRa c = rank' /\ cRa c' = rank.

(** What rank [r] sends through a channel matches in destination, source, tag and size what rank [r'] receives through the
    mirrored channel. *)
Theorem C15_send_matches_recv nTgs nElFas nByFa nCB r nEls chs sF sE rF rE d r' nEls' chs' sF' sE' rF' rE' d' ch c m ch' c' m' :
  setup nTgs nElFas nEls nByFa chs sF sE rF rE nCB d -> setup nTgs nElFas nEls' nByFa chs' sF' sE' rF' rE' nCB d' ->
  nth_error chs ch = Some c -> nth_error chs' ch' = Some c' -> mirror r r' c c' ->
  nth_error (dSendMsgs d) ch = Some m -> nth_error (dRecvMsgs d') ch' = Some m' ->
  mRank m = r' /\ mRank m' = r /\ mTag m = mTag m' /\ mSize m = mSize m' /\ (tgL m, tgR m) = (tgR m', tgL m').
Proof.
  intros [VS VR CB E] [VS' VR' CB' E'] Hc Hc' (X1 & X2 & X3 & X4 & X5) Hm Hm'.
  destruct (distInit_ok nTgs nElFas nEls nByFa chs sF sE rF rE nCB VS VR CB) as (d1 & E1 & _ & _ & _ & _ & _ & _ & _ & _ & _ & M).
  destruct (distInit_ok nTgs nElFas nEls' nByFa chs' sF' sE' rF' rE' nCB VS' VR' CB') as (d2 & E2 & _ & _ & _ & _ & _ & _ & _ & _ & _ & M').
  assert (d1 = d) as -> by congruence. assert (d2 = d') as -> by congruence.
  destruct (M ch c Hc) as (M1 & _). destruct (M' ch' c' Hc') as (_ & M2).
  assert (m = sendMsg nTgs nByFa chs ch c) as -> by congruence. assert (m' = recvMsg nTgs nByFa chs' ch' c') as -> by congruence.
  unfold sendMsg, recvMsg, sendBytes, recvBytes. cbn [mRank mTag mSize tgL tgR]. rewrite X1, X2, X3. repeat split; auto.
Qed.
Print Assumptions C15_send_matches_recv.

(** Messages of different channels to the same rank have different tags (time groups of the channels are below [nTgs] and no
    channel is listed twice), for sends and for receives. *)
Theorem C15_tags_unique nTgs nElFas nEls nByFa chs sF sE rF rE nCB d ch1 c1 m1 ch2 c2 m2 :
  setup nTgs nElFas nEls nByFa chs sF sE rF rE nCB d ->
  (forall c, In c chs -> cTg c < nTgs /\ cTgAd c < nTgs) -> NoDup (map (fun c => (cTg c, cRa c, cTgAd c)) chs) ->
  nth_error chs ch1 = Some c1 -> nth_error chs ch2 = Some c2 ->
  (nth_error (dSendMsgs d) ch1 = Some m1 /\ nth_error (dSendMsgs d) ch2 = Some m2) \/
  (nth_error (dRecvMsgs d) ch1 = Some m1 /\ nth_error (dRecvMsgs d) ch2 = Some m2) ->
  mRank m1 = mRank m2 -> mTag m1 = mTag m2 -> ch1 = ch2.
Proof.
  intros [VS VR CB E] HT ND H1 H2 HM HR HTag.
  destruct (distInit_ok nTgs nElFas nEls nByFa chs sF sE rF rE nCB VS VR CB) as (d1 & E1 & _ & _ & _ & _ & _ & _ & _ & _ & _ & M).
  assert (d1 = d) as -> by congruence.
  destruct (M _ _ H1) as (A1 & A2). destruct (M _ _ H2) as (B1 & B2).
  destruct (HT c1 (nth_error_In _ _ H1)) as (T1 & T2). destruct (HT c2 (nth_error_In _ _ H2)) as (T3 & T4).
  assert (EQ : cTg c1 = cTg c2 /\ cRa c1 = cRa c2 /\ cTgAd c1 = cTgAd c2).
  { destruct HM as [(G1 & G2)|(G1 & G2)].
    - assert (m1 = sendMsg nTgs nByFa chs ch1 c1) as -> by congruence. assert (m2 = sendMsg nTgs nByFa chs ch2 c2) as -> by congruence.
      cbn [mRank mTag sendMsg] in HR, HTag. assert (cTg c1 = cTg c2) by (destruct (lt_eq_lt_dec (cTg c1) (cTg c2)) as [[?|?]|?]; nia). repeat split; auto. nia.
    - assert (m1 = recvMsg nTgs nByFa chs ch1 c1) as -> by congruence. assert (m2 = recvMsg nTgs nByFa chs ch2 c2) as -> by congruence.
      cbn [mRank mTag recvMsg] in HR, HTag. assert (cTgAd c1 = cTgAd c2) by (destruct (lt_eq_lt_dec (cTgAd c1) (cTgAd c2)) as [[?|?]|?]; nia). repeat split; auto. nia. }
  destruct EQ as (Q1 & Q2 & Q3). apply (proj1 (NoDup_nth_error _) ND).
  - rewrite map_length. apply nth_error_Some. congruence.
  - rewrite !nth_error_map, H1, H2. cbn. congruence.
Qed.
Print Assumptions C15_tags_unique.

(** ** syncData *)

(** channel data: [n] bytes per face plus bytes per channel, one after the other *)
Definition chunk (nByCh nByFa : nat) (chs : list chan) (data : list nat) (ch : nat) : list nat :=
  let o := list_sum (map (fun c => cN c * nByFa + nByCh) (firstn ch chs)) in
  match nth_error chs ch with Some c => firstn (cN c * nByFa + nByCh) (skipn o data) | None => [] end.

Lemma chunk_S nByCh nByFa c chs data ch :
  chunk nByCh nByFa (c :: chs) data (S ch) = chunk nByCh nByFa chs (skipn (cN c * nByFa + nByCh) data) ch.
Proof.
  unfold chunk. cbn [firstn map nth_error]. rewrite list_sum_cons. destruct (nth_error chs ch); auto. f_equal.
  rewrite Nat.add_comm. set (a := list_sum _). set (b := cN c * _ + _). clearbody a b. revert data. induction b; intros data; [now rewrite Nat.add_0_r|].
  destruct data; [now rewrite !skipn_nil|]. rewrite Nat.add_succ_r. cbn [skipn]. apply IHb.
Qed.

Lemma syncSends_spec rank nByCh nByFa : forall chs ms data, length ms = length chs ->
  (forall x, In x (syncSends rank nByCh nByFa (map cN chs) ms data) ->
    exists ch c m, nth_error chs ch = Some c /\ nth_error ms ch = Some m /\ x = mkSmsg rank (mRank m) (mTag m) (chunk nByCh nByFa chs data ch)) /\
  (forall ch c m, nth_error chs ch = Some c -> nth_error ms ch = Some m ->
    In (mkSmsg rank (mRank m) (mTag m) (chunk nByCh nByFa chs data ch)) (syncSends rank nByCh nByFa (map cN chs) ms data)).
Proof.
  induction chs as [|c chs IH]; intros [|m ms] data HL; try discriminate; cbn [map syncSends].
  - split; [intros x []|]. intros [|ch] c m H; discriminate.
  - destruct (IH ms (skipn (cN c * nByFa + nByCh) data)) as (I1 & I2); [cbn in HL; lia|]. split.
    + intros x [<-|Hx].
      * exists 0, c, m. repeat split; auto.
      * destruct (I1 x Hx) as (ch & c' & m' & E1 & E2 & E3). exists (S ch), c', m'. repeat split; auto. rewrite chunk_S. exact E3.
    + intros [|ch] c' m' E1 E2; cbn [nth_error] in *.
      * left. injection E1 as <-. injection E2 as <-. reflexivity.
      * right. rewrite chunk_S. now apply (I2 ch c').
Qed.

Lemma syncRecvs_spec rank nByCh nByFa fly (want : nat -> list nat) : forall chs ms k, length ms = length chs ->
  (forall ch c m, nth_error chs ch = Some c -> nth_error ms ch = Some m ->
     exists x, find (fun x => (sSrc x =? mRank m) && (sDst x =? rank) && (sTag x =? mTag m)) fly = Some x /\
       sDat x = want (k + ch) /\ length (sDat x) = cN c * nByFa + nByCh) ->
  exists out, syncRecvs rank nByCh nByFa (map cN chs) ms fly = Ok out /\
    length out = list_sum (map (fun c => cN c * nByFa + nByCh) chs) /\
    forall ch, ch < length chs -> chunk nByCh nByFa chs out ch = want (k + ch).
Proof.
  induction chs as [|c chs IH]; intros [|m ms] k HL H; try discriminate; cbn [map syncRecvs].
  - exists []. repeat split; auto. cbn. lia.
  - destruct (H 0 c m eq_refl eq_refl) as (x & E1 & E2 & E3). rewrite E1. unfold check. rewrite E3, Nat.eqb_refl. cbn [bind].
    destruct (IH ms (S k)) as (out & F1 & F2 & F3); [cbn in HL; lia| |].
    { intros ch c' m' H1 H2. destruct (H (S ch) c' m' H1 H2) as (y & Y1 & Y2 & Y3). exists y. repeat split; auto. rewrite Y2. f_equal. lia. }
    rewrite F1. cbn [bind]. eexists. split; [reflexivity|]. split.
    + rewrite app_length, list_sum_cons, F2, E3. lia.
    + intros [|ch] Hch.
      * unfold chunk. cbn [nth_error firstn map]. change (list_sum []) with 0. cbn [skipn]. rewrite firstn_app, <- E3, Nat.sub_diag, firstn_all. cbn [firstn]. rewrite app_nil_r, Nat.add_0_r in *. exact E2.
      * rewrite chunk_S, skipn_app, <- E3, Nat.sub_diag, skipn_all. cbn [skipn app]. rewrite F3 by (cbn in Hch; lia). f_equal. lia.
Qed.

(** A system of ranks: channels, set-up and data to be exchanged of every rank. *)
Record world := mkWorld { wRanks : nat; wChs : nat -> list chan; wDist : nat -> dist; wData : nat -> list nat }.

Definition world_ok (W : world) (nTgs nElFas nByFa0 nCB nByCh nByFa : nat) : Prop :=
  forall r, r < wRanks W ->
    (exists nEls sF sE rF rE, setup nTgs nElFas nEls nByFa0 (wChs W r) sF sE rF rE nCB (wDist W r)) /\
    (forall c, In c (wChs W r) -> cTg c < nTgs /\ cTgAd c < nTgs) /\
    NoDup (map (fun c => (cTg c, cRa c, cTgAd c)) (wChs W r)) /\
    length (wData W r) = list_sum (map (fun c => cN c * nByFa + nByCh) (wChs W r)) /\
    (* every channel is mirrored by its peer *)
    forall c, In c (wChs W r) -> cRa c < wRanks W /\ exists c', In c' (wChs W (cRa c)) /\ mirror r (cRa c) c c'.

(** The messages of all ranks, in the order in which they arrive in some interleaving: any list with the
    same elements. *)
Definition in_flight (W : world) (nByCh nByFa : nat) (fly : list smsg) : Prop :=
  forall x, In x fly <-> exists r, r < wRanks W /\
    In x (syncSends r nByCh nByFa (dNSeRe (wDist W r)) (dSendMsgs (wDist W r)) (wData W r)).

(** syncData terminates on every rank and gives it, for every channel, the data which the adjacent rank provided for the
    mirrored channel. *)
Theorem C15_sync_data W nTgs nElFas nByFa0 nCB nByCh nByFa fly r :
  world_ok W nTgs nElFas nByFa0 nCB nByCh nByFa -> in_flight W nByCh nByFa fly -> r < wRanks W ->
  exists out, syncRecvs r nByCh nByFa (dNSeRe (wDist W r)) (dRecvMsgs (wDist W r)) fly = Ok out /\
    forall ch c ch' c', nth_error (wChs W r) ch = Some c -> nth_error (wChs W (cRa c)) ch' = Some c' -> mirror r (cRa c) c c' ->
      chunk nByCh nByFa (wChs W r) out ch = chunk nByCh nByFa (wChs W (cRa c)) (wData W (cRa c)) ch'.
Proof.
  intros WO FL Hr.
  destruct (WO r Hr) as ((nEls & sF & sE & rF & rE & [VS VR CB E]) & HT & ND & HL & HM).
  destruct (distInit_ok nTgs nElFas nEls nByFa0 (wChs W r) sF sE rF rE nCB VS VR CB) as (d1 & E1 & _ & _ & _ & _ & N1 & _ & _ & L1 & L2 & M).
  assert (d1 = wDist W r) as -> by congruence.
  (* position of the mirrored channel *)
  assert (MP : forall c, In c (wChs W r) -> exists ch', match nth_error (wChs W (cRa c)) ch' with Some c' => mirror r (cRa c) c c' | None => False end).
  { intros c Hc. destruct (HM c Hc) as (_ & c' & Hc' & MI). apply In_nth_error in Hc' as (ch' & E'). exists ch'. now rewrite E'. }
  assert (MU : forall c ch1 c1 ch2 c2, In c (wChs W r) -> nth_error (wChs W (cRa c)) ch1 = Some c1 -> nth_error (wChs W (cRa c)) ch2 = Some c2 ->
     mirror r (cRa c) c c1 -> mirror r (cRa c) c c2 -> ch1 = ch2).
  { intros c ch1 c1 ch2 c2 Hc Q1 Q2 (A1 & A2 & A3 & A4 & A5) (B1 & B2 & B3 & B4 & B5). destruct (HM c Hc) as (Hra & _).
    destruct (WO (cRa c) Hra) as (_ & _ & ND' & _). apply (proj1 (NoDup_nth_error _) ND').
    - rewrite map_length. apply nth_error_Some. congruence.
    - rewrite !nth_error_map, Q1, Q2. cbn. congruence. }
  (* data expected for a channel *)
  assert (ED : exists want : nat -> list nat, forall ch c ch' c', nth_error (wChs W r) ch = Some c ->
     nth_error (wChs W (cRa c)) ch' = Some c' -> mirror r (cRa c) c c' -> want ch = chunk nByCh nByFa (wChs W (cRa c)) (wData W (cRa c)) ch').
  { set (isM := fun c c' => (cTg c' =? cTgAd c) && (cTgAd c' =? cTg c) && (cN c' =? cN c) && (cRa c' =? r)).
    set (fp := fix fp (c : chan) (l : list chan) (k : nat) := match l with [] => k | c' :: l => if isM c c' then k else fp c l (S k) end).
    assert (FP : forall c l k, (exists c', In c' l /\ isM c c' = true) -> exists j c', fp c l k = k + j /\ nth_error l j = Some c' /\ isM c c' = true).
    { intros c. induction l as [|x l IH]; intros k (c' & Hc' & HI); [destruct Hc'|]. cbn. destruct (isM c x) eqn:EX.
      - exists 0, x. rewrite Nat.add_0_r. auto.
      - destruct Hc' as [->|Hc']; [congruence|]. destruct (IH (S k) (ex_intro _ c' (conj Hc' HI))) as (j & c2 & Q1 & Q2 & Q3). exists (S j), c2. rewrite Q1. repeat split; auto. lia. }
    assert (IM : forall c c', isM c c' = true <-> cTg c' = cTgAd c /\ cTgAd c' = cTg c /\ cN c' = cN c /\ cRa c' = r).
    { intros c c'. unfold isM. rewrite !andb_true_iff, !Nat.eqb_eq. tauto. }
    exists (fun ch => match nth_error (wChs W r) ch with Some c => chunk nByCh nByFa (wChs W (cRa c)) (wData W (cRa c)) (fp c (wChs W (cRa c)) 0) | None => [] end).
    intros ch c ch' c' Hc Hc' MI. rewrite Hc. f_equal.
    destruct (FP c (wChs W (cRa c)) 0) as (j & c2 & Q1 & Q2 & Q3).
    { exists c'. split; [eapply nth_error_In; eauto|]. apply IM. destruct MI as (? & ? & ? & ? & ?). auto. }
    rewrite Q1. apply (MU c j c2 ch' c'); auto; [eapply nth_error_In; eauto|]. apply IM in Q3. unfold mirror. tauto. }
  destruct ED as (want & HW).
  rewrite N1. destruct (syncRecvs_spec r nByCh nByFa fly want (wChs W r) (dRecvMsgs (wDist W r)) 0 L2) as (out & F1 & F2 & F3).
  - intros ch c m Hc Hm. destruct (HM c (nth_error_In _ _ Hc)) as (Hra & c' & Hc' & MI). apply In_nth_error in Hc' as (ch' & Hc').
    destruct (M ch c Hc) as (_ & M2). assert (m = recvMsg nTgs nByFa0 (wChs W r) ch c) as -> by congruence. clear Hm.
    destruct (WO (cRa c) Hra) as ((nEls' & sF' & sE' & rF' & rE' & [VS' VR' CB' E']) & HT' & ND' & HL' & _).
    destruct (distInit_ok nTgs nElFas nEls' nByFa0 (wChs W (cRa c)) sF' sE' rF' rE' nCB VS' VR' CB') as (d2 & E2 & _ & _ & _ & _ & N2 & _ & _ & L1' & _ & M').
    assert (d2 = wDist W (cRa c)) as -> by congruence.
    assert (INF : In (mkSmsg (cRa c) r (cTgAd c * nTgs + cTg c) (chunk nByCh nByFa (wChs W (cRa c)) (wData W (cRa c)) ch')) fly).
    { apply FL. exists (cRa c). split; auto. destruct (M' ch' c' Hc') as (M1' & _).
      destruct (syncSends_spec (cRa c) nByCh nByFa (wChs W (cRa c)) (dSendMsgs (wDist W (cRa c))) (wData W (cRa c)) L1') as (_ & SS).
      rewrite N2. specialize (SS ch' c' _ Hc' M1'). cbn [mRank mTag sendMsg] in SS. destruct MI as (A1 & A2 & A3 & A4 & A5). rewrite A1, A2, A5 in SS. exact SS. }
    cbn [mRank mTag recvMsg].
    destruct (find (fun x => (sSrc x =? cRa c) && (sDst x =? r) && (sTag x =? cTgAd c * nTgs + cTg c)) fly) as [x|] eqn:EF.
    2: { exfalso. pose proof (find_none _ _ EF _ INF) as X. cbn in X. rewrite !Nat.eqb_refl in X. discriminate. }
    apply find_some in EF as (EF & EQ). rewrite !andb_true_iff, !Nat.eqb_eq in EQ. destruct EQ as ((Q1 & Q2) & Q3).
    exists x. split; auto.
    (* x was sent by the peer through the mirrored channel *)
    apply FL in EF as (r2 & Hr2 & EF). 
    destruct (WO r2 Hr2) as ((nE & f1 & f2 & f3 & f4 & [VS2 VR2 CB2 E22]) & HT2 & ND2 & HL2 & _).
    destruct (distInit_ok nTgs nElFas nE nByFa0 (wChs W r2) f1 f2 f3 f4 nCB VS2 VR2 CB2) as (d3 & E3 & _ & _ & _ & _ & N3 & _ & _ & L3 & _ & M3).
    assert (d3 = wDist W r2) as -> by congruence.
    rewrite N3 in EF. destruct (syncSends_spec r2 nByCh nByFa (wChs W r2) (dSendMsgs (wDist W r2)) (wData W r2) L3) as (SS & _).
    destruct (SS x EF) as (ch2 & c2 & m2 & G1 & G2 & ->). cbn [sSrc sDst sTag sDat] in *. subst r2.
    destruct (M3 ch2 c2 G1) as (G3 & _). assert (m2 = sendMsg nTgs nByFa0 (wChs W (cRa c)) ch2 c2) as -> by congruence.
    cbn [mRank mTag sendMsg] in Q2, Q3. destruct MI as (A1 & A2 & A3 & A4 & A5).
    destruct (HT2 c2 (nth_error_In _ _ G1)) as (T1 & T2). destruct (HT c (nth_error_In _ _ Hc)) as (T3 & T4).
    assert (cTg c2 = cTgAd c) by (destruct (lt_eq_lt_dec (cTg c2) (cTgAd c)) as [[?|?]|?]; nia).
    assert (cTgAd c2 = cTg c) by nia.
    assert (ch2 = ch').
    { apply (proj1 (NoDup_nth_error _) ND2).
      - rewrite map_length. apply nth_error_Some. congruence.
      - rewrite !nth_error_map, G1, Hc'. cbn. congruence. }
    subst ch2. assert (c2 = c') as -> by congruence. split.
    + symmetry. apply (HW ch c ch' c'); auto. repeat split; auto.
    + unfold chunk. rewrite G1. rewrite firstn_length, skipn_length, HL2, A3.
      set (f := fun c => cN c * nByFa + nByCh).
      assert (SUM : list_sum (map f (firstn ch' (wChs W (cRa c)))) + f c' <= list_sum (map f (wChs W (cRa c)))).
      { rewrite <- (firstn_skipn (S ch') (wChs W (cRa c))) at 2. rewrite (firstn_S_snoc _ _ _ G1), !map_app, !list_sum_app. cbn [map]. rewrite list_sum_cons. lia. }
      unfold f in SUM at 2. rewrite A3 in SUM. unfold f in *. lia.
  - exists out. split; auto. intros ch c ch' c' Hc Hc' MI. rewrite F3 by (apply nth_error_Some; congruence). cbn [Nat.add]. now apply (HW ch c ch' c').
Qed.
Print Assumptions C15_sync_data.

(* ------------------------------------------------------------------ *)
(** ** C16 *)

Section MinProof.
Context {V : Type} (leb : V -> V -> bool).
Hypothesis total : forall a b, leb a b = true \/ leb b a = true.
Hypothesis trans : forall a b c, leb a b = true -> leb b c = true -> leb a c = true.

Lemma redMin_spec (f : nat -> V) n : (exists i, i <= n /\ redMin (vmin leb) f n = f i) /\ forall i, i <= n -> leb (redMin (vmin leb) f n) (f i) = true.
Proof.
  induction n as [|n ((i & Hi & E) & H)]; cbn [redMin].
  - split; [exists 0; auto|]. intros i Hi. assert (i = 0) as -> by lia. destruct (total (f 0) (f 0)); auto.
  - unfold vmin at 1 3. destruct (leb (redMin (vmin leb) f n) (f (S n))) eqn:L.
    + split; [exists i; split; [lia|auto]|]. intros j Hj. destruct (Nat.eq_dec j (S n)) as [->|]; auto. apply H. lia.
    + split; [exists (S n); auto|]. intros j Hj. destruct (Nat.eq_dec j (S n)) as [->|]; [destruct (total (f (S n)) (f (S n))); auto|].
      apply trans with (redMin (vmin leb) f n); [destruct (total (f (S n)) (redMin (vmin leb) f n)); congruence|]. apply H. lia.
Qed.

Lemma redMin_nat (f : nat -> nat) n : (exists i, i <= n /\ redMin Nat.min f n = f i) /\ forall i, i <= n -> redMin Nat.min f n <= f i.
Proof.
  induction n as [|n ((i & Hi & E) & H)]; cbn [redMin].
  - split; [exists 0; auto|]. intros i Hi. assert (i = 0) as -> by lia. lia.
  - split.
    + destruct (Nat.min_spec (redMin Nat.min f n) (f (S n))) as [(_ & ->)|(_ & ->)]; [exists i|exists (S n)]; split; auto.
    + intros j Hj. destruct (Nat.eq_dec j (S n)) as [->|]; [lia|]. specialize (H j ltac:(lia)). lia.
Qed.
End MinProof.

(** [r] holds a minimum of the values of the ranks below [n] *)
Definition holdsMin {V} (leb : V -> V -> bool) (n : nat) (vals : nat -> V) (r : nat) : Prop :=
  r < n /\ forall r', r' < n -> leb (vals r) (vals r') = true.

(** A rank is marked as owner exactly if it is the lowest rank which holds the minimum; there is exactly one owner. The values
    may be of any type with a total order, i.e. doubles which are numbers. *)
Theorem C16_unique_owner {V} (leb : V -> V -> bool) imax nRanks vals :
  (forall a b, leb a b = true \/ leb b a = true) -> (forall a b c, leb a b = true -> leb b c = true -> leb a c = true) ->
  0 < nRanks <= imax ->
  (forall r, r < nRanks -> (ownsMin leb imax nRanks vals r = true <->
     holdsMin leb nRanks vals r /\ forall r', holdsMin leb nRanks vals r' -> r <= r')) /\
  (exists! r, r < nRanks /\ ownsMin leb imax nRanks vals r = true).
Proof.
  intros TO TR HN. set (n := nRanks - 1). set (g := redMin (vmin leb) vals n).
  destruct (redMin_spec leb TO TR vals n) as ((i & Hi & Ei) & GM). fold g in Ei, GM.
  destruct (redMin_nat (bid leb imax nRanks vals) n) as ((j & Hj & Ej) & BM).
  assert (HB : forall r, r < nRanks -> holdsMin leb nRanks vals r <-> bid leb imax nRanks vals r = r).
  { intros r Hr. unfold bid. fold n g. unfold veq. split.
    - intros (_ & H). rewrite (GM r) by (unfold n in *; lia). rewrite Ei, H by (unfold n in *; lia). reflexivity.
    - destruct (leb (vals r) g) eqn:L; [|cbn [andb]; intros; lia]. intros _. split; auto. intros r' Hr'. apply TR with g; auto. apply GM. unfold n. lia. }
  assert (HJ : holdsMin leb nRanks vals j /\ bid leb imax nRanks vals j = j).
  { assert (Hjn : j < nRanks) by (unfold n in *; lia).
    assert (HI : bid leb imax nRanks vals i = i).
    { apply HB; [unfold n in *; lia|]. split; [unfold n in *; lia|]. intros r' Hr'. rewrite <- Ei. apply GM. unfold n. lia. }
    pose proof (BM i Hi) as B. rewrite HI, Ej in B.
    assert (X : bid leb imax nRanks vals j = j \/ bid leb imax nRanks vals j = imax) by (unfold bid; destruct (veq _ _ _); auto).
    destruct X as [X|X]; [|unfold n in *; lia]. split; auto. now apply HB. }
  destruct HJ as (HJ1 & HJ2).
  assert (OW : forall r, r < nRanks -> ownsMin leb imax nRanks vals r = true <-> r = j).
  { intros r Hr. unfold ownsMin. fold n. rewrite Ej, HJ2, Nat.eqb_eq. split; auto. }
  assert (LO : forall r', holdsMin leb nRanks vals r' -> j <= r').
  { intros r' Hr'. pose proof (proj1 Hr') as L. apply HB in Hr'; auto. pose proof (BM r' ltac:(unfold n; lia)) as B. rewrite Ej, HJ2, Hr' in B. exact B. }
  split.
  - intros r Hr. rewrite OW by auto. split; [intros ->; auto|]. intros (H1 & H2). specialize (H2 j HJ1). specialize (LO r H1). lia.
  - exists j. split; [split; [apply HJ1|now apply OW; [apply HJ1|]]|]. intros r (Hr & H). symmetry. now apply OW.
Qed.
Print Assumptions C16_unique_owner.

(* ------------------------------------------------------------------ *)
(** ** C17 *)

(** Number of the update (counted from 0 at the synchronization point) of the sender whose data update [u] of the receiver
    needs; both groups equal, or the receiver's steps are twice as long, or half as long. *)
Definition senderUpdate (u tgRecv tgSend : nat) : nat :=
  if tgRecv =? tgSend then u else if tgSend <? tgRecv then 2 * u + 1 else u / 2.

(** One communication buffer (MPI): the neighbouring update reads inside of the range which the message fills, in every
    update. *)
Theorem C17_one_buffer nTgs nElFas nEls nByFa chs sF sE rF rE d u ch c m i b e :
  setup nTgs nElFas nEls nByFa chs sF sE rF rE 1 d -> nth_error chs ch = Some c -> nth_error (dRecvMsgs d) ch = Some m ->
  slot (recvBytes nByFa) (dRecvPtrs d) nElFas chs rE rF (recvPtrIdx 1 u) ch i b e ->
  forall x, b <= x < e -> mOff m <= x < mOff m + mSize m.
Proof.
  intros U Hc Hm Hs x Hx. assert (EI : recvPtrIdx 1 u = 0) by (unfold recvPtrIdx; now rewrite Nat.mod_1_r). rewrite EI in Hs.
  destruct (C14_recv_slots _ _ _ _ _ _ _ _ _ _ _ U) as (_ & _ & _ & H4 & _).
  assert (B0 : recvPtrBuf (cTg c) (cTgAd c) 0 = 0) by (unfold recvPtrBuf; destruct (_ <=? _); reflexivity).
  pose proof (proj2 (H4 0 ch c m x ltac:(lia) Hc Hm)) as H. cbv beta in H. rewrite B0 in H. apply H. exists i, b, e. auto.
Qed.
Print Assumptions C17_one_buffer.

(** Two communication buffers, send: the local update writes the buffer which is sent. *)
Remark two_buffers_send u : fst (fst (sendCommBuffers2 u)) = sendPtrIdx 2 u.
Proof. reflexivity. Qed.

(** Two communication buffers (GASPI), notifications: the receiver waits for the buffer into which the sender writes. *)
Theorem C17_two_buffers_notified u tgRecv tgSend : tgRecv = tgSend \/ tgRecv = S tgSend \/ tgSend = S tgRecv ->
  gaspiRemote (senderUpdate u tgRecv tgSend) tgSend tgRecv = Some (gaspiLocal u tgRecv tgSend).
Proof.
  intros H. unfold gaspiRemote, gaspiLocal, sendCommBuffers2, recvCommBuffers2, senderUpdate.
  destruct H as [-> |[-> | ->]].
  - rewrite Nat.eqb_refl, Nat.ltb_irrefl. reflexivity.
  - replace (S tgSend =? tgSend) with false by lia. replace (tgSend <? S tgSend) with true by lia. replace (S tgSend <? tgSend) with false by lia.
    assert (E1 : (2 * u + 1) mod 2 = 1) by lia. assert (E2 : (2 * u + 1) / 2 = u) by lia. rewrite E1, E2. reflexivity.
  - replace (tgRecv =? S tgRecv) with false by lia. replace (S tgRecv <? tgRecv) with false by lia. replace (tgRecv <? S tgRecv) with true by lia. reflexivity.
Qed.
Print Assumptions C17_two_buffers_notified.

(** With two communication buffers the neighbouring update does not read the buffer which was filled: in update 1 already, for
    groups of the same time step. *)
Theorem C17_two_buffers_refuted : exists u tgRecv tgSend,
  (tgRecv = tgSend \/ tgRecv = S tgSend \/ tgSend = S tgRecv) /\
  gaspiRemote (senderUpdate u tgRecv tgSend) tgSend tgRecv <> Some (recvPtrBuf tgRecv tgSend (recvPtrIdx 2 u)).
Proof. exists 1, 0, 0. split; [auto|]. discriminate. Qed.
Print Assumptions C17_two_buffers_refuted.

(** It would with the pointers of index [u mod 4], which the set-up provides. *)
Theorem C17_two_buffers_mod_4 u tgRecv tgSend : tgRecv = tgSend \/ tgRecv = S tgSend \/ tgSend = S tgRecv ->
  gaspiRemote (senderUpdate u tgRecv tgSend) tgSend tgRecv = Some (recvPtrBuf tgRecv tgSend (u mod 4)).
Proof.
  intros H. rewrite C17_two_buffers_notified by auto. f_equal. unfold gaspiLocal, recvCommBuffers2, recvPtrBuf.
  destruct H as [-> |[-> | ->]].
  - rewrite Nat.ltb_irrefl, Nat.leb_refl. lia.
  - replace (S tgSend <? tgSend) with false by lia. replace (tgSend <=? S tgSend) with true by lia. lia.
  - replace (tgRecv <? S tgRecv) with true by lia. replace (S tgRecv <=? tgRecv) with false by lia. lia.
Qed.
Print Assumptions C17_two_buffers_mod_4.

(* ------------------------------------------------------------------ *)
(** ** Concrete cases *)

Definition exChs : list chan := [mkChan 0 3 1 2; mkChan 1 3 0 1; mkChan 1 2 1 2].

Example C14_ex : exists d, setup 2 4 6 10 exChs [0; 1; 3; 2; 0] [5; 5; 4; 3; 3] [0; 1; 3; 2; 1] [5; 5; 4; 3; 4] 2 d /\
  map (fun k => ptr (dSendPtrs d) 1 k) [20; 21; 19; 14; 12; 0] = [Ok (Some 60); Ok (Some 70); Ok (Some 80); Ok (Some 100); Ok (Some 110); Ok None] /\
  map mSize (dSendMsgs d) = [20; 20; 20] /\ map mOff (dRecvMsgs d) = [0; 40; 50].
Proof.
  eexists. split; [split|].
  - repeat split; cbn; auto; intros [|[|[|[|[|k]]]]]; try discriminate; try (intros x H; injection H as <-; lia); try (intros k'; do 5 (destruct k' as [|k']; try discriminate; auto); lia); try (destruct k; discriminate); lia.
  - repeat split; cbn; auto; intros [|[|[|[|[|k]]]]]; try discriminate; try (intros x H; injection H as <-; lia); try (intros k'; do 5 (destruct k' as [|k']; try discriminate; auto); lia); try (destruct k; discriminate); lia.
  - auto.
  - vm_compute. reflexivity.
  - vm_compute. repeat split.
Qed.

Definition exW : world := mkWorld 2
  (fun r => match r with 0 => [mkChan 0 1 1 2; mkChan 1 1 1 1] | _ => [mkChan 1 0 0 2; mkChan 1 0 1 1] end)
  (fun r => match distInit 2 4 6 10 (Some (encode (match r with 0 => [mkChan 0 1 1 2; mkChan 1 1 1 1] | _ => [mkChan 1 0 0 2; mkChan 1 0 1 1] end)))
     [0; 1; 3] [1; 1; 2] [0; 1; 3] [1; 1; 2] 1 with Ok d => d | Er _ => mkDist 0 0 0 0 [] [] [] [] [] end)
  (fun r => map (fun x => 10 * r + x) [1; 2; 3; 4; 5]).

Example C15_ex : world_ok exW 2 4 10 1 1 1 /\
  syncRecvs 0 1 1 (dNSeRe (wDist exW 0)) (dRecvMsgs (wDist exW 0))
    (flat_map (fun r => syncSends r 1 1 (dNSeRe (wDist exW r)) (dSendMsgs (wDist exW r)) (wData exW r)) [0; 1]) = Ok [11; 12; 13; 14; 15].
Proof.
  split; [|vm_compute; reflexivity].
  intros r Hr. cbn in Hr. destruct r as [|[|r]]; [| |lia]; (split; [|split; [|split; [|split]]]).
  1, 6: exists 6, [0; 1; 3], [1; 1; 2], [0; 1; 3], [1; 1; 2]; split; [| |auto|vm_compute; reflexivity];
    repeat split; cbn; auto; intros [|[|[|k]]]; try discriminate; try (intros x H; injection H as <-; lia); try (intros k'; do 3 (destruct k' as [|k']; try discriminate; auto); lia); try (destruct k; discriminate); lia.
  1, 5: cbn; intros c [<-|[<-|[]]]; cbn; lia.
  1, 4: cbn; repeat constructor; cbn; intuition congruence.
  1, 3: reflexivity.
  - cbn. intros c [<-|[<-|[]]]; cbn; (split; [lia|]).
    + exists (mkChan 1 0 0 2). cbn. repeat split; auto.
    + exists (mkChan 1 0 1 1). cbn. repeat split; auto.
  - cbn. intros c [<-|[<-|[]]]; cbn; (split; [lia|]).
    + exists (mkChan 0 1 1 2). cbn. repeat split; auto.
    + exists (mkChan 1 1 1 1). cbn. repeat split; auto.
Qed.

Example C16_ex : map (ownsMin Z.leb 100 4 (fun r => nth r [3; -1; 4; -1]%Z 0%Z)) [0; 1; 2; 3] = [false; true; false; false].
Proof. reflexivity. Qed.
