(** C102: the files of internal boundaries: sub-faces of the boundary faces with the values handed over. *)
From Coq Require Import List Arith Bool ZArith QArith Lia.
From Verif Require Import Util Comm ElSpec LlfSpec ScQuad ScQuadSpec ScQuadV ScQuadW SubGrid SubGridSpec SubGridW IbWriter IbWriterSpec IbWriterV.
Import ListNotations.
Open Scope nat_scope.

(** The initialization never fails on complete tables. Every boundary face gets a point per sub-vertex and a cell per sub-face; the vertices of a cell are the positions of the ghost sub-cell's vertices in the left element (hexes: the first two exchanged). Ids count the points of all boundary faces. *)
Theorem C102_init : forall T zero phy hex nDis nFas nSfs nFaVes nFaSvs nScs nBf scSv o_l o_r I, tables hex nFas nSfs nFaVes nFaSvs nScs scSv o_l o_r -> (forall bf, bf < nBf -> ready T phy nDis nFas nSfs nFaVes nScs scSv I bf) ->
  exists grid, init T zero phy hex nDis nFas nSfs nFaVes nFaSvs nScs nBf scSv o_l o_r I = Ok grid /\ length grid = nBf /\ forall bf, bf < nBf -> exists p c el fa, nth_error grid bf = Some (p, c) /\ leftOf T I bf el fa /\ length p = nFaSvs /\ length c = nSfs /\
    forall sf, sf < nSfs -> exists row, nth_error c sf = Some row /\ length row = nFaVes /\ forall ve, ve < nFaVes -> exists k x, nth_error row ve = Some (bf * nFaSvs + k) /\ k < nFaSvs /\ nth_error p k = Some x /\
    position T zero phy nDis I bf (at2 scSv (nScs + fa * nSfs + sf) (exch hex ve)) x.
Proof. intros T zero phy hex nDis nFas nSfs nFaVes nFaSvs nScs nBf scSv o_l o_r I (H1 & H2 & H3 & H4 & H5 & H6) R. now apply init_ok. Qed.
Print Assumptions C102_init.

(** two elements with two faces of two sub-faces each; positions are offset by the element's first vertex *)
Definition exPhy (ves : list (list nat)) (xi : list nat) : res (list nat) := a <- rd2 ves 0 0 ;; b <- rd2 ves 1 0 ;; x <- rd xi 0 ;; y <- rd xi 1 ;; Ok [a + x; b + y].
Definition exI : conn nat := {| bfBe := [[1]; [0]; [1]]; beEl := [0; 1]; elVe := [[0]; [1]]; crdVe := [[10; 20]; [30; 40]]; crdSv := [[0; 0]; [3; 0]; [6; 0]; [6; 6]]; fIds := [[0]; [1]; [0]] |}.
Definition exSc : list (list Z) := [[9; 9]; [0; 1]; [1; 2]; [2; 3]; [3; 1]]%Z.
Definition exGrid : list (list (list nat) * list (list nat)) :=
  [([[30; 40; 0]; [33; 40; 0]; [36; 40; 0]], [[0; 1]; [1; 2]]); ([[16; 20; 0]; [16; 26; 0]; [13; 20; 0]], [[3; 4]; [4; 5]]); ([[30; 40; 0]; [33; 40; 0]; [36; 40; 0]], [[6; 7]; [7; 8]])].
Lemma ex_tables : tables false 2 2 2 3 1 exSc [[[9; 9]; [9; 9]]; [[9; 9]; [9; 9]]] [[]; []].
Proof.
  split; [discriminate|]. split; [reflexivity|]. split; [reflexivity|]. split; [intros rows [<-|[<-|[]]]; (split; [reflexivity|intros row [<-|[<-|[]]]; reflexivity])|].
  split; [intros [|[|fa]] [|[|sf]] H1 H2; try lia; cbn; eexists; split; try reflexivity; cbn; lia|]. intros [|[|fa]] H; try lia; (split; [cbn; intros [Q|[Q|[Q|[Q|[]]]]]; discriminate|reflexivity]).
Qed.
Lemma ex_ready : forall bf, bf < 3 -> ready nat exPhy 2 2 2 2 1 exSc exI bf.
Proof.
  assert (V : forall el crd, nth_error (elVe nat exI) el = Some [el] -> nth_error (crdVe nat exI) el = Some crd -> length crd = 2 -> forall ves v, shapeOf nat 2 exI el ves -> (v = 0 \/ v = 1 \/ v = 2 \/ v = 3)%Z -> (0 <= v)%Z /\ exists xi x, nth_error (crdSv nat exI) (Z.to_nat v) = Some xi /\ exPhy ves xi = Ok x).
  { intros el crd E1 E2 L ves v (ids & A & B & C) Hv. rewrite E1 in A. injection A as <-. destruct (C 0) as (r0 & R1 & R2 & R3); [lia|]. destruct (C 1) as (r1 & Q1 & Q2 & Q3); [lia|]. destruct (R3 0 el eq_refl) as (c & x & _ & _ & X). destruct (Q3 0 el eq_refl) as (c' & y & _ & _ & Y).
    unfold exPhy. rewrite (rd2_some _ _ _ _ _ R1 X). cbn [bind]. rewrite (rd2_some _ _ _ _ _ Q1 Y). cbn [bind]. destruct Hv as [->|[->|[->| ->]]]; (split; [lia|]); do 2 eexists; split; reflexivity. }
  intros [|[|[|bf]]] H; try lia; unfold ready, leftOf.
  - exists 1, 0, [1]. split; [do 3 eexists; repeat split; reflexivity|]. split; [lia|]. split; [reflexivity|]. split; [intros v [<-|[]]; eexists; split; [reflexivity|cbn; lia]|]. intros ves v S Hv. apply (V 1 [30; 40]); auto. cbn in Hv. intuition.
  - exists 0, 1, [0]. split; [do 3 eexists; repeat split; reflexivity|]. split; [lia|]. split; [reflexivity|]. split; [intros v [<-|[]]; eexists; split; [reflexivity|cbn; lia]|]. intros ves v S Hv. apply (V 0 [10; 20]); auto. cbn in Hv. intuition.
  - exists 1, 0, [1]. split; [do 3 eexists; repeat split; reflexivity|]. split; [lia|]. split; [reflexivity|]. split; [intros v [<-|[]]; eexists; split; [reflexivity|cbn; lia]|]. intros ves v S Hv. apply (V 1 [30; 40]); auto. cbn in Hv. intuition.
Qed.
Example C102_init_ex : tables false 2 2 2 3 1 exSc [[[9; 9]; [9; 9]]; [[9; 9]; [9; 9]]] [[]; []] /\ (forall bf, bf < 3 -> ready nat exPhy 2 2 2 2 1 exSc exI bf) /\
  init nat 0 exPhy false 2 2 2 2 3 1 3 exSc [[[9; 9]; [9; 9]]; [[9; 9]; [9; 9]]] [[]; []] exI = Ok exGrid.
Proof. split; [exact ex_tables|]. split; [exact ex_ready|]. reflexivity. Qed.

(** The generated tables of quads, of every degree up to 126, meet the hypotheses. *)
Theorem C102_quads : forall deg o_l o_r, let n := 2 * deg + 1 in deg <= 126 -> length o_l = 4 -> length o_r = 4 -> (forall rows, In rows o_l -> length rows = n /\ forall row, In row rows -> length row = 2) ->
  tables false 4 (nSfsQuad (deg + 1)) 2 (nSvsLine (deg + 1)) (nScsQuad (deg + 1)) (quadShorts deg) o_l o_r.
Proof.
  intros deg o_l o_r. cbv zeta. intros HD LL LR W. unfold nSfsQuad, nScsQuad, nSvsLine. replace (2 * (deg + 1 - 1) + 1) with (nSfs deg) by (unfold nSfs; lia). replace (2 * (deg + 1)) with (nSfs deg + 1) by (unfold nSfs; lia). change (2 * deg + 1) with (nSfs deg) in *.
  assert (N := n_pos deg). set (n := nSfs deg) in *. assert (B : (n + 1) * (n + 1) < 256 * 256) by (assert (n + 1 <= 254) by (unfold n, nSfs; lia); assert (M := Nat.mul_le_mono (n + 1) 254 (n + 1) 254); lia).
  set (V := fun fa k => Z.of_nat (faceV n fa k)).
  assert (AT : forall fa sf sv, fa < 4 -> sf < n -> sv < 2 -> at2 (quadShorts deg) (n * n + fa * n + sf) sv = V fa (sf + sv)).
  { intros fa sf sv Hf Hs Hv. unfold at2. unfold n at 1 2 3. rewrite (nth_error_nth _ _ _ (ghost_row deg fa sf Hf Hs)). fold n. destruct sv as [|[|sv]]; [| |lia]; cbn [map nth]; rewrite (toShort_small _ n B) by (apply faceV_lt; lia); unfold V; rewrite ?Nat.add_0_r; reflexivity. }
  assert (FI : forall fa, fa < 4 -> faceIds n 2 (n * n) (quadShorts deg) fa = flat_map (fun sf => [V fa sf; V fa (sf + 1)]) (seq 0 n)).
  { intros fa Hf. unfold faceIds. assert (X : forall l, (forall sf, In sf l -> sf < n) -> flat_map (fun sf => map (at2 (quadShorts deg) (n * n + fa * n + sf)) (seq 0 2)) l = flat_map (fun sf => [V fa sf; V fa (sf + 1)]) l).
    { induction l as [|a l IH]; intros H; [reflexivity|]. cbn [flat_map]. rewrite IH by (intros; apply H; right; auto). f_equal. cbn [seq map]. rewrite !AT by (auto; apply H; left; reflexivity). rewrite Nat.add_0_r. reflexivity. }
    apply X. intros sf H. apply in_seq in H. lia. }
  assert (FF : forall fa, fa < 4 -> firsts (faceIds n 2 (n * n) (quadShorts deg) fa) = map (V fa) (seq 0 (n + 1))).
  { intros fa Hf. rewrite FI by auto. apply firsts_path; auto. intros i j Hi Hj E. unfold V in E. apply Nat2Z.inj in E. apply faceV_inj in E; auto. }
  split; [discriminate|]. split; [exact LL|]. split; [exact LR|]. split; [exact W|]. split.
  - intros fa sf Hf Hs. eexists. split; [apply ghost_row; auto|]. cbn. lia.
  - intros fa Hf. split; [|rewrite FF, map_length, seq_length by auto; lia]. intros H. apply firsts_in in H. rewrite FF in H by auto. apply in_map_iff in H. destruct H as (k & Q & Hk). apply in_seq in Hk. assert (L := faceV_lt n fa k ltac:(lia)). unfold V, inv in Q. assert (n + 1 <= 254) by (unfold n, nSfs; lia). assert (M := Nat.mul_le_mono (n + 1) 254 (n + 1) 254). lia.
Qed.
Print Assumptions C102_quads.
Example C102_quads_ex : faceIds (nSfsQuad 2) 2 (nScsQuad 2) (quadShorts 1) 1 = [3; 7; 7; 11; 11; 15]%Z /\ nSvsLine 2 = 4. Proof. split; reflexivity. Qed.

(** The values of a file: the value of quantity [qt] at sub-face [sf] of the [i]-th boundary face is the entry handed over for it, whatever was in the buffer and however many values lie between two sub-faces. *)
Theorem C102_values : forall T nSfs first size nQts stride (data buf : list T), 0 < nQts -> nQts <= stride -> (first + size) * stride * nSfs <= length data -> nQts * size * nSfs <= length buf ->
  exists buf', copy T nSfs first size nQts stride data buf = Ok buf' /\ length buf' = length buf /\
  forall i sf qt, i < size -> sf < nSfs -> qt < nQts -> nth_error buf' (qt * size * nSfs + (i * nSfs + sf)) = nth_error data (((first + i) * nSfs + sf) * stride + qt).
Proof. exact @copy_ok. Qed.
Print Assumptions C102_values.
Example C102_values_ex : copy nat 2 1 1 2 3 [1; 2; 3; 4; 5; 6; 7; 8; 9; 10; 11; 12] [0; 0; 0; 0; 0] = Ok [7; 10; 8; 11; 0]. Proof. reflexivity. Qed.

Lemma write_ok : forall T zero phy hex nDis nFas nSfs nFaVes nFaSvs nScs nBf scSv o_l o_r I grid first size nQts stride (data buf : list T),
  tables hex nFas nSfs nFaVes nFaSvs nScs scSv o_l o_r -> (forall bf, bf < nBf -> ready T phy nDis nFas nSfs nFaVes nScs scSv I bf) -> init T zero phy hex nDis nFas nSfs nFaVes nFaSvs nScs nBf scSv o_l o_r I = Ok grid ->
  0 < size -> first + size <= nBf -> 0 < nQts -> nQts <= stride -> nBf * stride * nSfs <= length data -> nQts * size * nSfs <= length buf ->
  exists f buf', write T nSfs nFaSvs first size nQts stride grid data buf = Ok (Some f, buf') /\ length buf' = length buf /\ fileOk T zero phy hex nDis nSfs nFaVes nFaSvs nScs first size nQts stride scSv I data (first * nFaSvs) f.
Proof.
  intros T zero phy hex nDis nFas nSfs nFaVes nFaSvs nScs nBf scSv o_l o_r I grid first size nQts stride data buf TB RD EI HS HF HQ HST HD HB.
  destruct (C102_init T zero phy hex nDis nFas nSfs nFaVes nFaSvs nScs nBf scSv o_l o_r I TB RD) as (g & E & LG & G). rewrite EI in E. injection E as <-.
  destruct (copy_ok nSfs first size nQts stride data buf HQ HST) as (buf' & EC & LB & NB); [|auto|]. { etransitivity; [|exact HD]. apply Nat.mul_le_mono_r, Nat.mul_le_mono_r. lia. }
  assert (RP : forall r, In r (map fst grid) -> length r = nFaSvs) by (intros r Hr; apply in_map_iff in Hr; destruct Hr as ((p & c) & <- & Hr); apply In_nth_error in Hr; destruct Hr as (bf & Hr); assert (bf < nBf) by (rewrite <- LG; apply nth_error_Some; congruence); destruct (G bf H) as (p' & c' & el & fa & A & _ & B & _); rewrite A in Hr; injection Hr as <- <-; exact B).
  assert (RC : forall r, In r (map snd grid) -> length r = nSfs) by (intros r Hr; apply in_map_iff in Hr; destruct Hr as ((p & c) & <- & Hr); apply In_nth_error in Hr; destruct Hr as (bf & Hr); assert (bf < nBf) by (rewrite <- LG; apply nth_error_Some; congruence); destruct (G bf H) as (p' & c' & el & fa & A & _ & _ & B & _); rewrite A in Hr; injection Hr as <- <-; exact B).
  destruct (slice_ok (first * nFaSvs) (size * nFaSvs) (concat (map fst grid))) as (p & EP & LP & NP). { rewrite (concat_len _ _ RP), map_length, LG. nia. }
  destruct (slice_ok (first * nSfs) (size * nSfs) (concat (map snd grid))) as (c & ES & LC & NC). { rewrite (concat_len _ _ RC), map_length, LG. nia. }
  destruct (mapM_seq (fun qt => slice (qt * size * nSfs) (size * nSfs) buf') nQts) as (v & EV & LV & NV). { intros qt Hq. destruct (slice_ok (qt * size * nSfs) (size * nSfs) buf') as (s & S & _); [nia|eauto]. }
  exists {| pts := p; cells := c; vals := v |}, buf'. split; [|split; [exact LB|]].
  { unfold write. destruct (Nat.eqb_spec size 0); [lia|]. destruct (Nat.eqb_spec stride 0); [lia|]. destruct (Nat.leb_spec nQts stride); [|lia]. cbn [negb check bind]. rewrite EC. cbn [bind]. rewrite EP. cbn [bind]. rewrite ES. cbn [bind]. rewrite EV. reflexivity. }
  split; [exact LP|]. split; [exact LC|]. split; [exact LV|]. cbn [pts cells vals]. intros i sf Hi Hs. split.
  - destruct (G (first + i)) as (p' & c' & el & fa & A & LO & L1 & L2 & R); [lia|]. destruct (R sf Hs) as (row & R1 & R2 & R3). exists el, fa, row. split; [exact LO|]. split; [|split; [exact R2|]].
    + rewrite NC by nia. replace (first * nSfs + (i * nSfs + sf)) with ((first + i) * nSfs + sf) by lia. rewrite (concat_nth _ _ RC _ _ c'); auto. rewrite (map_nth_error snd _ _ A). reflexivity.
    + intros ve Hv. destruct (R3 ve Hv) as (k & x & K1 & K2 & K3 & K4). exists (i * nFaSvs + k), x. split; [rewrite K1; f_equal; lia|]. split; [|exact K4]. rewrite NP by nia. replace (first * nFaSvs + (i * nFaSvs + k)) with ((first + i) * nFaSvs + k) by lia. rewrite (concat_nth _ _ RP _ _ p'); auto. rewrite (map_nth_error fst _ _ A). reflexivity.
  - intros qt Hq. destruct (NV qt Hq) as (s & S1 & S2). destruct (slice_ok (qt * size * nSfs) (size * nSfs) buf') as (s' & S3 & S4 & S5); [nia|]. rewrite S3 in S2. injection S2 as ->. exists s. split; [exact S1|]. split; [exact S4|]. rewrite S5 by nia. apply NB; auto.
Qed.

(** A file of the first boundary faces is right: the ids of every cell are those of the points at its corners, and the cell's values are those handed over for its sub-face. *)
Theorem C102_write : forall T zero phy hex nDis nFas nSfs nFaVes nFaSvs nScs nBf scSv o_l o_r I grid size nQts stride (data buf : list T),
  tables hex nFas nSfs nFaVes nFaSvs nScs scSv o_l o_r -> (forall bf, bf < nBf -> ready T phy nDis nFas nSfs nFaVes nScs scSv I bf) -> init T zero phy hex nDis nFas nSfs nFaVes nFaSvs nScs nBf scSv o_l o_r I = Ok grid ->
  0 < size -> size <= nBf -> 0 < nQts -> nQts <= stride -> nBf * stride * nSfs <= length data -> nQts * size * nSfs <= length buf ->
  exists f buf', write T nSfs nFaSvs 0 size nQts stride grid data buf = Ok (Some f, buf') /\ fileOk T zero phy hex nDis nSfs nFaVes nFaSvs nScs 0 size nQts stride scSv I data 0 f.
Proof. intros. edestruct (write_ok T zero phy hex nDis nFas nSfs nFaVes nFaSvs nScs nBf scSv o_l o_r I grid 0 size nQts stride data buf) as (f & buf' & E & _ & F); eauto. Qed.
Print Assumptions C102_write.
Example C102_write_ex : exists f buf', write nat 2 3 0 2 2 2 exGrid (seq 100 12) (repeat 0 9) = Ok (Some f, buf') /\ cells nat f = [[0; 1]; [1; 2]; [3; 4]; [4; 5]] /\ pts nat f = [[30; 40; 0]; [33; 40; 0]; [36; 40; 0]; [16; 20; 0]; [16; 26; 0]; [13; 20; 0]] /\ vals nat f = [[100; 102; 104; 106]; [101; 103; 105; 107]] /\ write nat 2 3 0 0 2 2 exGrid [] [] = Ok (None, []).
Proof. do 2 eexists. repeat split; reflexivity. Qed.

(** A file of any range of boundary faces has the right points and values, but the ids of the cells are too high by the number of points before the range. *)
Theorem C102_shifted : forall T zero phy hex nDis nFas nSfs nFaVes nFaSvs nScs nBf scSv o_l o_r I grid first size nQts stride (data buf : list T),
  tables hex nFas nSfs nFaVes nFaSvs nScs scSv o_l o_r -> (forall bf, bf < nBf -> ready T phy nDis nFas nSfs nFaVes nScs scSv I bf) -> init T zero phy hex nDis nFas nSfs nFaVes nFaSvs nScs nBf scSv o_l o_r I = Ok grid ->
  0 < size -> first + size <= nBf -> 0 < nQts -> nQts <= stride -> nBf * stride * nSfs <= length data -> nQts * size * nSfs <= length buf ->
  exists f buf', write T nSfs nFaSvs first size nQts stride grid data buf = Ok (Some f, buf') /\ length buf' = length buf /\ fileOk T zero phy hex nDis nSfs nFaVes nFaSvs nScs first size nQts stride scSv I data (first * nFaSvs) f.
Proof. exact write_ok. Qed.
Print Assumptions C102_shifted.
Example C102_shifted_ex : exists f buf', write nat 2 3 1 2 1 2 exGrid (seq 100 12) (repeat 0 4) = Ok (Some f, buf') /\ cells nat f = [[3; 4]; [4; 5]; [6; 7]; [7; 8]] /\ length (pts nat f) = 6 /\ vals nat f = [[104; 106; 108; 110]].
Proof. do 2 eexists. repeat split; reflexivity. Qed.

(** So the claim fails for every range that does not start with the first boundary face: no vertex of the last boundary face's cells is a point of the file. *)
Theorem C102_first_refuted : forall T zero phy hex nDis nFas nSfs nFaVes nFaSvs nScs nBf scSv o_l o_r I grid first size nQts stride (data buf : list T),
  tables hex nFas nSfs nFaVes nFaSvs nScs scSv o_l o_r -> (forall bf, bf < nBf -> ready T phy nDis nFas nSfs nFaVes nScs scSv I bf) -> init T zero phy hex nDis nFas nSfs nFaVes nFaSvs nScs nBf scSv o_l o_r I = Ok grid ->
  0 < first -> 0 < size -> first + size <= nBf -> 0 < nQts -> nQts <= stride -> nBf * stride * nSfs <= length data -> nQts * size * nSfs <= length buf ->
  exists f buf', write T nSfs nFaSvs first size nQts stride grid data buf = Ok (Some f, buf') /\ forall sf row ve id, sf < nSfs -> nth_error (cells T f) ((size - 1) * nSfs + sf) = Some row -> nth_error row ve = Some id -> nth_error (pts T f) id = None.
Proof.
  intros T zero phy hex nDis nFas nSfs nFaVes nFaSvs nScs nBf scSv o_l o_r I grid first size nQts stride data buf TB RD EI H0 HS HF HQ HST HD HB.
  destruct (write_ok T zero phy hex nDis nFas nSfs nFaVes nFaSvs nScs nBf scSv o_l o_r I grid first size nQts stride data buf TB RD EI HS HF HQ HST HD HB) as (f & buf' & E & _ & (LP & LC & _ & F)). exists f, buf'. split; [exact E|].
  intros sf row ve id Hs ER EI'. apply nth_error_None. rewrite LP. destruct (C102_init T zero phy hex nDis nFas nSfs nFaVes nFaSvs nScs nBf scSv o_l o_r I TB RD) as (g & E' & LG & G). rewrite EI in E'. injection E' as <-.
  destruct (G (first + (size - 1))) as (p & c & el & fa & A & _ & L1 & L2 & R); [lia|]. destruct (R sf Hs) as (row' & R1 & R2 & R3).
  assert (Q : row' = row).
  { unfold write in E. destruct (Nat.eqb_spec size 0); [lia|]. destruct (Nat.eqb_spec stride 0); [lia|]. destruct (Nat.leb_spec nQts stride); [|lia]. cbn [negb check bind] in E. destruct (copy T nSfs first size nQts stride data buf); [|discriminate]. cbn [bind] in E.
    destruct (slice (first * nFaSvs) _ _); [|discriminate]. cbn [bind] in E. destruct (slice (first * nSfs) _ _) as [c0|] eqn:ES; [|discriminate]. cbn [bind] in E. destruct (mapM _ _); [|discriminate]. cbn [bind] in E. injection E as <- _. cbn [cells] in *.
    assert (RC : forall r, In r (map snd grid) -> length r = nSfs) by (intros r Hr; apply in_map_iff in Hr; destruct Hr as ((p1 & c1) & <- & Hr); apply In_nth_error in Hr; destruct Hr as (bf & Hr); assert (Hb : bf < nBf) by (rewrite <- LG; apply nth_error_Some; congruence); destruct (G bf Hb) as (p' & c' & el' & fa' & A' & _ & _ & B & _); rewrite A' in Hr; injection Hr as <- <-; exact B).
    destruct (slice_ok (first * nSfs) (size * nSfs) (concat (map snd grid))) as (c2 & ES' & _ & NC); [rewrite (concat_len _ _ RC), map_length, LG; nia|]. rewrite ES in ES'. injection ES' as <-. rewrite NC in ER by nia. replace (first * nSfs + ((size - 1) * nSfs + sf)) with ((first + (size - 1)) * nSfs + sf) in ER by lia.
    rewrite (concat_nth _ _ RC _ _ c) in ER; auto; [congruence|]. rewrite (map_nth_error snd _ _ A). reflexivity. }
  subst row'. assert (Hv : ve < nFaVes) by (rewrite <- R2; apply nth_error_Some; congruence). destruct (R3 ve Hv) as (k & x & K1 & _). rewrite K1 in EI'. injection EI' as <-. nia.
Qed.
Print Assumptions C102_first_refuted.
Example C102_first_refuted_ex : exists f buf', write nat 2 3 2 1 1 2 exGrid (seq 100 12) (repeat 0 2) = Ok (Some f, buf') /\ cells nat f = [[6; 7]; [7; 8]] /\ length (pts nat f) = 3.
Proof. do 2 eexists. repeat split; reflexivity. Qed.
