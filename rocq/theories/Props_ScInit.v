(** C104: the solver's tables of the sub-grid are those of the pre-processing. *)
From Coq Require Import List Arith Bool ZArith Lia.
From Verif Require Import Util Comm SubGrid IbWriterV ScInit ScInitSpec ScInitV.
Import ListNotations.
Open Scope nat_scope.

(** Tables written as text and compiled into the solver are arrays with the same entries, row after row, and with the right size. *)
Theorem C104_text : forall (F V : Type) (zero : V) (conv : F -> res V) (g : F -> V),
  (forall n m t, 0 < n -> 0 < m -> table2 n m t -> (forall i j v, entry t i j v -> conv v = Ok (g v)) ->
     exists raw, convert F V zero conv (write2d F t) = Ok (raw, n * m) /\ length raw = n * m /\ forall i j v, i < n -> j < m -> entry t i j v -> nth_error raw (i * m + j) = Some (g v)) /\
  (forall k n m t, 0 < k -> 0 < n -> 0 < m -> table3 k n m t -> (forall b i j v block, nth_error t b = Some block -> entry block i j v -> conv v = Ok (g v)) ->
     exists raw, convert F V zero conv (write3d F t) = Ok (raw, k * n * m) /\ length raw = k * n * m /\ forall b i j v block, b < k -> i < n -> j < m -> nth_error t b = Some block -> entry block i j v -> nth_error raw ((b * n + i) * m + j) = Some (g v)).
Proof.
  intros F V zero conv g. assert (N : forall m (t : list (list F)) i j v, (forall r, In r t -> length r = m) -> j < m -> entry t i j v -> nth_error (concat (map (map g) t)) (i * m + j) = Some (g v)).
  { intros m t i j v R Hj (r & H1 & H2). rewrite (concat_nth _ m) with (row := map g r); auto; [|intros x Hx; apply in_map_iff in Hx; destruct Hx as (y & <- & Hy); rewrite map_length; auto|rewrite nth_error_map, H1; reflexivity]. rewrite nth_error_map, H2. reflexivity. }
  assert (L : forall m (t : list (list F)), (forall r, In r t -> length r = m) -> length (concat (map (map g) t)) = length t * m).
  { intros m t R. rewrite (concat_len _ m), map_length; auto. intros x Hx. apply in_map_iff in Hx. destruct Hx as (y & <- & Hy). rewrite map_length. auto. }
  split.
  - intros n m t Hn Hm T C. eexists. split; [apply (convert2 _ _ _ _ g n m); auto; intros r v Hr Hv|destruct T as (Lt & R); split; [rewrite (L m), Lt by auto; reflexivity|intros; apply N; auto]].
    apply In_nth_error in Hr. destruct Hr as (i & Hr). apply In_nth_error in Hv. destruct Hv as (j & Hv). apply (C i j v). exists r. auto.
  - intros k n m t Hk Hn Hm T C. eexists. split; [apply (convert3 _ _ _ _ g k n m); auto; intros b r v Hb Hr Hv|].
    + apply In_nth_error in Hb. destruct Hb as (a & Hb). apply In_nth_error in Hr. destruct Hr as (i & Hr). apply In_nth_error in Hv. destruct Hv as (j & Hv). apply (C a i j v b); auto. exists r. auto.
    + destruct T as (Lt & R). assert (RC : forall r, In r (concat t) -> length r = m) by (intros r Hr; apply in_concat in Hr; destruct Hr as (b & Hb & Hr); apply (R b Hb); auto). assert (RB : forall b, In b t -> length b = n) by (intros b Hb; apply (R b Hb)). split.
      * rewrite (L m), (concat_len t n), Lt by auto. reflexivity.
      * intros b i j v block Hb Hi Hj HB (r & H1 & H2). apply N; auto. exists r. split; [|auto]. rewrite (concat_nth t n) with (row := block); auto.
Qed.
Print Assumptions C104_text.
Example C104_text_ex : convert nat nat 0 (fun v => Ok v) (write3d nat [[[1; 2]; [3; 4]; [5; 6]]; [[7; 8]; [9; 10]; [11; 12]]]) = Ok ([1; 2; 3; 4; 5; 6; 7; 8; 9; 10; 11; 12], 12).
Proof. reflexivity. Qed.

Lemma toId_short v : idOk v -> toId v = Ok (short v).
Proof. unfold idOk, toId, short, umax. intros H. destruct (Z.eqb_spec v (-1)); [reflexivity|]. destruct (Z.leb_spec 0 v), (Z.leb_spec v 65535); try lia. reflexivity. Qed.
Lemma short_inv v : idOk v -> short v = umax -> v = (-1)%Z.
Proof. unfold idOk, short, umax. destruct (Z.eqb_spec v (-1)); lia. Qed.
Lemma map_table {A B} (f : A -> B) n m t : table2 n m t -> table2 n m (map (map f) t).
Proof. intros (L & R). split; [now rewrite map_length|]. intros r Hr. apply in_map_iff in Hr. destruct Hr as (x & <- & Hx). rewrite map_length. auto. Qed.
Lemma map_entry {A B} (f : A -> B) t i j v : entry t i j v -> entry (map (map f) t) i j (f v).
Proof. intros (r & H1 & H2). exists (map f r). rewrite !nth_error_map, H1, H2. auto. Qed.
Lemma entry_id t i j v : idsOk t -> entry t i j v -> idOk v.
Proof. intros H (r & H1 & H2). eapply H; eapply nth_error_In; eauto. Qed.
Lemma build t n m : 0 < n -> 0 < m -> table2 n m t -> idsOk t -> built t (concat (map (map short) t), n * m).
Proof. intros Hn Hm T I. unfold built. apply (convert2 _ _ _ _ short n m); auto. intros r v Hr Hv. apply toId_short. eauto. Qed.

(** The tables of the sub-grid reach the solver unchanged, with its invalid id for -1; the sub-cells at the faces are those next to the ghost sub-cells. *)
Theorem C104_connect : forall nDis nVesFa nVesEl nFas nSfs nScs sv sc ty ad o, let n := nScs + nFas * nSfs in
  0 < nVesFa -> 0 < nVesEl -> 0 < nFas -> 0 < nSfs -> 0 < nScs -> shaped nDis nVesFa nVesEl nFas nSfs nScs o ->
  table2 n nVesEl sv -> table2 n nFas sc -> table2 nScs nFas ty -> table2 (orients nDis nVesFa) nSfs ad -> idsOk sv -> idsOk sc -> idsOk ty -> idsOk ad -> ghostsOk (-1) nFas nSfs nScs sc ->
  exists g c, built sv (g_scsv g) /\ built sc (g_scsfsc g) /\ built ty (g_sctysf g) /\ built ad (g_scdgad g) /\ connect nDis nVesFa nVesEl nFas nSfs nScs g o = Ok c /\
    scSv c = map (map short) sv /\ scSfSc c = map (map short) sc /\ scTySf c = map (map short) ty /\ scDgAd c = map (map short) ad /\
    table2 nFas nSfs (faSfSc c) /\ forall fa sf v, fa < nFas -> sf < nSfs -> entry sc (nScs + fa * nSfs + sf) 0 v -> (0 <= v)%Z /\ entry (faSfSc c) fa sf v.
Proof.
  intros nDis nVesFa nVesEl nFas nSfs nScs sv sc ty ad o n H1 H2 H3 H4 H5 O T1 T2 T3 T4 I1 I2 I3 I4 G. assert (Hn : 0 < n) by (unfold n; lia). assert (Ho : 0 < orients nDis nVesFa) by (unfold orients; destruct (nDis =? 3); lia).
  destruct (connect_ok nDis nVesFa nVesEl nFas nSfs nScs (map (map short) sv) (map (map short) sc) (map (map short) ty) (map (map short) ad) o) as [(fa & E & T & _ & D)|(E & NG)]; auto using map_table.
  - eexists. eexists. split; [|split; [|split; [|split; [|split; [exact E|]]]]]; try (cbn [g_scsv g_scsfsc g_sctysf g_scdgad]; apply build; auto; fail). cbn [scSv scSfSc scTySf scDgAd faSfSc]. do 4 (split; [reflexivity|]). split; [exact T|]. intros f sf v Hf Hs Hv. destruct (G f sf Hf Hs) as ((w & Hw & Nw) & _). rewrite <- (entry_fun _ _ _ _ _ Hv Hw) in Nw. split.
    + assert (J := entry_id _ _ _ _ I2 Hv). unfold idOk in J. lia.
    + destruct (D f sf Hf Hs) as (x & Hx & Hfa). assert (J := entry_fun _ _ _ _ _ Hx (map_entry short _ _ _ _ Hv)). unfold short in J. destruct (Z.eqb_spec v (-1)); [contradiction|]. rewrite <- J. exact Hfa.
  - exfalso. apply NG. intros f sf Hf Hs. destruct (G f sf Hf Hs) as ((v & Hv & Nv) & R). split.
    + exists (short v). split; [apply map_entry; exact Hv|]. intros Q. apply Nv. apply short_inv; [exact (entry_id _ _ _ _ I2 Hv)|exact Q].
    + intros f2 H. change umax with (short (-1)). apply map_entry. apply R. exact H.
Qed.
Print Assumptions C104_connect.
(** a line with three sub-cells *)
Definition exSv : list (list Z) := [[1; 2]; [0; 1]; [2; 3]; [0; -1]; [3; -1]]%Z.
Definition exSc : list (list Z) := [[1; 2]; [3; 0]; [0; 4]; [1; -1]; [2; -1]]%Z.
Definition exTy : list (list Z) := [[4; 5]; [0; 5]; [4; 1]]%Z.
Definition exAd : list (list Z) := [[0]]%Z.
Definition exO : conn := {| scSv := repeat [0; 0]%Z 5; scSfSc := repeat [0; 0]%Z 5; faSfSc := [[0]; [0]]%Z; scTySf := repeat [0; 0]%Z 3; scDgAd := [[0]]%Z |}.
Example C104_connect_ex : exists g c, built exSv (g_scsv g) /\ built exSc (g_scsfsc g) /\ built exTy (g_sctysf g) /\ built exAd (g_scdgad g) /\ connect 1 1 2 2 1 3 g exO = Ok c /\ faSfSc c = [[1]; [2]]%Z /\ ghostsOk (-1) 2 1 3 exSc.
Proof.
  eexists {| g_scsv := (_, _); g_scsfsc := (_, _); g_sctysf := (_, _); g_scdgad := (_, _) |}. eexists. split; [reflexivity|]. split; [reflexivity|]. split; [reflexivity|]. split; [reflexivity|]. split; [vm_compute; reflexivity|]. split; [reflexivity|].
  intros [|[|fa]] [|sf] Hf Hs; try lia; (split; [eexists; split; [eexists; split; reflexivity|discriminate]|]); intros [|[|f2]] H; try lia; eexists; split; reflexivity.
Qed.

Definition sizesOk (nDis nVesFa nVesEl nFas nSfs nScs : nat) (g : rawConn) : Prop :=
  snd (g_scsv g) = (nScs + nFas * nSfs) * nVesEl /\ snd (g_scsfsc g) = (nScs + nFas * nSfs) * nFas /\ snd (g_sctysf g) = nScs * nFas /\ snd (g_scdgad g) = orients nDis nVesFa * nSfs.
(** Whatever arrays are compiled in: the solver gets exactly their entries, or the program stops. It stops if and only if a size is wrong for the element type and order, or a ghost sub-cell does not have exactly one adjacent sub-cell at its first position. *)
Theorem C104_stops : forall nDis nVesFa nVesEl nFas nSfs nScs g o, 0 < nFas -> shaped nDis nVesFa nVesEl nFas nSfs nScs o -> sized (g_scsv g) -> sized (g_scsfsc g) -> sized (g_sctysf g) -> sized (g_scdgad g) ->
  let good := sizesOk nDis nVesFa nVesEl nFas nSfs nScs g /\ exists t, table2 (nScs + nFas * nSfs) nFas t /\ concat t = fst (g_scsfsc g) /\ ghostsOk 65535 nFas nSfs nScs t in
  (good /\ exists c, connect nDis nVesFa nVesEl nFas nSfs nScs g o = Ok c /\ shaped nDis nVesFa nVesEl nFas nSfs nScs c /\ concat (scSv c) = fst (g_scsv g) /\ concat (scSfSc c) = fst (g_scsfsc g) /\ concat (scTySf c) = fst (g_sctysf g) /\ concat (scDgAd c) = fst (g_scdgad g) /\
     forall fa sf, fa < nFas -> sf < nSfs -> exists v, entry (scSfSc c) (nScs + fa * nSfs + sf) 0 v /\ entry (faSfSc c) fa sf v) \/
  (~ good /\ connect nDis nVesFa nVesEl nFas nSfs nScs g o = Er Echeck).
Proof.
  intros nDis nVesFa nVesEl nFas nSfs nScs g o Hn O S1 S2 S3 S4 good. set (n := nScs + nFas * nSfs) in *. unfold sized in *. destruct g as [(r1, z1) (r2, z2) (r3, z3) (r4, z4)]. cbn [g_scsv g_scsfsc g_sctysf g_scdgad fst snd] in *. assert (O' := O). destruct O' as (O1 & O2 & O3 & O4 & O5). fold n in O1, O2.
  unfold good, sizesOk. cbn [g_scsv g_scsfsc g_sctysf g_scdgad fst snd]. fold n.
  destruct (Nat.eq_dec z1 (n * nVesEl)) as [E1|N1]; [|right; split; [tauto|]; unfold connect; fold n; cbn [g_scsv fst snd]; destruct (Nat.eqb_spec z1 (n * nVesEl)); [contradiction|reflexivity]].
  destruct (chunk nVesEl n r1) as (t1 & Q1 & T1); [lia|]. destruct (Nat.eq_dec z2 (n * nFas)) as [E2|N2].
  2:{ right; split; [tauto|]. unfold connect; fold n; cbn [g_scsv g_scsfsc fst snd]. rewrite E1, Nat.eqb_refl. cbn [check bind]. rewrite (copy2_ok _ _ _ _ _ t1) by auto. cbn [bind]. destruct (Nat.eqb_spec z2 (n * nFas)); [contradiction|reflexivity]. }
  destruct (chunk nFas n r2) as (t2 & Q2 & T2); [lia|]. assert (U : forall t, table2 n nFas t -> concat t = r2 -> t = t2).
  { intros t T Q. subst r2. clear - T T2 Q Hn. destruct T as (L & R), T2 as (L2 & R2). rewrite <- L2 in L. clear L2. revert t2 L R2 Q. induction t as [|a t IH]; intros [|b t2] L R2 Q; try discriminate L; [reflexivity|]. cbn [concat] in Q. assert (A := R a (or_introl eq_refl)). assert (B := R2 b (or_introl eq_refl)).
    assert (E : a = b) by (rewrite <- (firstn_all a), <- (firstn_all b), A, B; apply (f_equal (firstn nFas)) in Q; rewrite !firstn_app, A, B, Nat.sub_diag, !firstn_O, !app_nil_r in Q; exact Q). subst b. f_equal. apply app_inv_head in Q. apply IH; auto; intros; [apply R|apply R2]; now right. }
  destruct (getFa_ok nFas nSfs nScs t2 (faSfSc o) Hn T2 O3) as [(fa & E & T & G & D)|(E & NG)].
  2:{ right. split; [intros (_ & t & Tt & Qt & Gt); apply NG; rewrite <- (U t Tt Qt); exact Gt|]. unfold connect; fold n; cbn [g_scsv g_scsfsc fst snd]. rewrite E1, E2, !Nat.eqb_refl. cbn [check bind]. rewrite (copy2_ok _ _ _ _ _ t1) by auto. cbn [bind]. rewrite (copy2_ok _ _ _ _ _ t2) by auto. cbn [bind]. rewrite E. reflexivity. }
  destruct (Nat.eq_dec z3 (nScs * nFas)) as [E3|N3].
  2:{ right; split; [tauto|]. unfold connect; fold n; cbn [g_scsv g_scsfsc g_sctysf fst snd]. rewrite E1, E2, !Nat.eqb_refl. cbn [check bind]. rewrite (copy2_ok _ _ _ _ _ t1) by auto. cbn [bind]. rewrite (copy2_ok _ _ _ _ _ t2) by auto. cbn [bind]. rewrite E. cbn [bind]. destruct (Nat.eqb_spec z3 (nScs * nFas)); [contradiction|reflexivity]. }
  destruct (chunk nFas nScs r3) as (t3 & Q3 & T3); [lia|]. destruct (Nat.eq_dec z4 (orients nDis nVesFa * nSfs)) as [E4|N4].
  2:{ right; split; [tauto|]. unfold connect; fold n; cbn [g_scsv g_scsfsc g_sctysf g_scdgad fst snd]. rewrite E1, E2, E3, !Nat.eqb_refl. cbn [check bind]. rewrite (copy2_ok _ _ _ _ _ t1) by auto. cbn [bind]. rewrite (copy2_ok _ _ _ _ _ t2) by auto. cbn [bind]. rewrite E. cbn [bind]. rewrite (copy2_ok _ _ _ _ _ t3) by auto. cbn [bind]. change (nOr nDis nVesFa) with (orients nDis nVesFa). destruct (Nat.eqb_spec z4 (orients nDis nVesFa * nSfs)); [contradiction|reflexivity]. }
  destruct (chunk nSfs (orients nDis nVesFa) r4) as (t4 & Q4 & T4); [lia|]. left. split; [split; [auto|]; exists t2; auto|].
  destruct (connect_ok nDis nVesFa nVesEl nFas nSfs nScs t1 t2 t3 t4 o Hn O T1 T2 T3 T4) as [(fa' & E' & T' & _ & D')|(_ & NG)]; [|contradiction]. cbv zeta in E'. fold n in E'. rewrite <- Q1, <- Q2, <- Q3, <- Q4 in E'. change (nOr nDis nVesFa) with (orients nDis nVesFa) in E'. rewrite <- E1, <- E2, <- E3, <- E4 in E'. eexists. split; [exact E'|]. unfold shaped. cbn [scSv scSfSc scTySf scDgAd faSfSc]. fold n. split; [repeat (split; [assumption|]); assumption|]. repeat (split; [auto|]). exact D'.
Qed.
Print Assumptions C104_stops.
Example C104_stops_ex : let g s := {| g_scsv := (concat exSv, 10); g_scsfsc := ([1; 2; 3; 0; 0; 4; 1; s; 2; 65535]%Z, 10); g_sctysf := (concat exTy, 6); g_scdgad := (concat exAd, 1) |} in
  (exists c, connect 1 1 2 2 1 3 (g 65535%Z) exO = Ok c) /\ connect 1 1 2 2 1 3 (g 7%Z) exO = Er Echeck /\ connect 1 1 2 2 1 2 (g 65535%Z) exO = Er Echeck.
Proof. cbv zeta. split; [eexists; vm_compute; reflexivity|]. split; vm_compute; reflexivity. Qed.

Lemma build2 {V} (zero : V) t n m : 0 < n -> 0 < m -> table2 n m t -> built2 zero t (concat t, n * m).
Proof. intros Hn Hm T. unfold built2. rewrite (convert2 V V zero _ (fun v => v) n m); auto. rewrite (map_ext _ (fun r => r)) by (intros; apply map_id). now rewrite map_id. Qed.
Lemma build3 {V} (zero : V) t k n m : 0 < k -> 0 < n -> 0 < m -> table3 k n m t -> built3 zero t (concat (concat t), k * n * m).
Proof. intros Hk Hn Hm T. unfold built3. rewrite (convert3 V V zero _ (fun v => v) k n m); auto. rewrite (map_ext _ (fun r => r)) by (intros; apply map_id). now rewrite map_id. Qed.
(** The coordinates of the sub-vertices and the matrices between DG and sub-cell solutions reach the solver unchanged. *)
Theorem C104_ops : forall (V : Type) (zero : V) nSvs nDis nVesFa nFas nSfs nScs nMds crds sca su ga sf oc o,
  0 < nSvs -> 0 < nDis -> 0 < nVesFa -> 0 < nFas -> 0 < nSfs -> 0 < nScs -> 0 < nMds -> table2 nSvs nDis crds -> table2 nMds nScs sca -> table3 (surfaces nDis nVesFa nFas) nMds nSfs su -> table2 nScs nMds ga -> table3 nFas nSfs nMds sf ->
  table2 nSvs nDis oc -> opsShaped nDis nVesFa nFas nSfs nScs nMds o ->
  exists gc g, built2 zero crds gc /\ built2 zero sca (g_scatter V g) /\ built3 zero su (g_scattersurf V g) /\ built2 zero ga (g_gather V g) /\ built3 zero sf (g_sfint V g) /\
    svChars V nSvs nDis gc oc = Ok crds /\ ops V nDis nVesFa nFas nSfs nScs nMds g o = Ok {| scatter := sca; scatterSurf := su; gather := ga; sfInt := sf |}.
Proof.
  intros V zero nSvs nDis nVesFa nFas nSfs nScs nMds crds sca su ga sf oc o H1 H2 H3 H4 H5 H6 H7 T1 T2 T3 T4 T5 OC (O1 & O2 & O3 & O4). assert (Hs : 0 < surfaces nDis nVesFa nFas) by (unfold surfaces; destruct (nDis <? 3); lia).
  exists (concat crds, nSvs * nDis). eexists {| g_scatter := (_, _); g_scattersurf := (_, _); g_gather := (_, _); g_sfint := (_, _) |}. cbn [g_scatter g_scattersurf g_gather g_sfint].
  split; [apply build2; auto|]. split; [apply (build2 zero sca nMds nScs); auto|]. split; [apply (build3 zero su (surfaces nDis nVesFa nFas) nMds nSfs); auto|]. split; [apply (build2 zero ga nScs nMds); auto|]. split; [apply (build3 zero sf nFas nSfs nMds); auto|].
  split; [unfold svChars; cbn [fst snd]; rewrite Nat.eqb_refl; cbn [check bind]; apply copy2_ok; auto|]. unfold ops. cbn [g_scatter g_scattersurf g_gather g_sfint fst snd]. assert (N : nScaSu nDis nVesFa nFas = surfaces nDis nVesFa nFas) by (unfold nScaSu, surfaces; destruct (nDis <? 3); lia). rewrite N.
  rewrite (Nat.mul_comm nMds (surfaces nDis nVesFa nFas)), !Nat.eqb_refl. cbn [check bind]. rewrite (copy2_ok _ _ _ _ _ sca) by auto. cbn [bind]. rewrite (copy3_ok _ _ _ _ _ _ su) by auto. cbn [bind]. rewrite (copy2_ok _ _ _ _ _ ga) by auto. cbn [bind]. rewrite (copy3_ok _ _ _ _ _ _ sf) by auto. reflexivity.
Qed.
Print Assumptions C104_ops.
Example C104_ops_ex : table2 2 3 [[1; 2; 3]; [4; 5; 6]] /\ table3 4 2 1 (repeat [[1]; [2]] 4) /\ surfaces 1 1 2 = 4 /\
  ops nat 1 1 2 1 3 2 {| g_scatter := ([1; 2; 3; 4; 5; 6], 6); g_scattersurf := (seq 1 8, 8); g_gather := (seq 1 6, 6); g_sfint := (seq 1 4, 4) |} {| scatter := repeat [0; 0; 0] 2; scatterSurf := repeat [[0]; [0]] 4; gather := repeat [0; 0] 3; sfInt := repeat [[0; 0]] 2 |} =
  Ok {| scatter := [[1; 2; 3]; [4; 5; 6]]; scatterSurf := [[[1]; [2]]; [[3]; [4]]; [[5]; [6]]; [[7]; [8]]]; gather := [[1; 2]; [3; 4]; [5; 6]]; sfInt := [[[1; 2]]; [[3; 4]]] |}.
Proof.
  split; [split; [reflexivity|intros r [<-|[<-|[]]]; reflexivity]|]. split; [split; [reflexivity|intros b H; apply repeat_spec in H; subst b; split; [reflexivity|intros r [<-|[<-|[]]]; reflexivity]]|]. split; [reflexivity|vm_compute; reflexivity].
Qed.

(** Whatever coordinates and matrices are compiled in: the solver gets exactly their entries if the sizes are right for the element type and order, otherwise the program stops. *)
Theorem C104_ops_stop : forall (V : Type) nSvs nDis nVesFa nFas nSfs nScs nMds gc g oc o c c',
  sized gc -> sized (g_scatter V g) -> sized (g_scattersurf V g) -> sized (g_gather V g) -> sized (g_sfint V g) -> table2 nSvs nDis oc -> opsShaped nDis nVesFa nFas nSfs nScs nMds o ->
  (svChars V nSvs nDis gc oc = Ok c <-> table2 nSvs nDis c /\ concat c = fst gc) /\
  (ops V nDis nVesFa nFas nSfs nScs nMds g o = Ok c' <-> opsShaped nDis nVesFa nFas nSfs nScs nMds c' /\ concat (scatter V c') = fst (g_scatter V g) /\ concat (concat (scatterSurf V c')) = fst (g_scattersurf V g) /\ concat (gather V c') = fst (g_gather V g) /\ concat (concat (sfInt V c')) = fst (g_sfint V g)) /\
  (snd gc <> nSvs * nDis -> svChars V nSvs nDis gc oc = Er Echeck) /\
  (ops V nDis nVesFa nFas nSfs nScs nMds g o = Er Echeck \/ exists c, ops V nDis nVesFa nFas nSfs nScs nMds g o = Ok c).
Proof.
  intros V nSvs nDis nVesFa nFas nSfs nScs nMds gc g oc o c c' S0 S1 S2 S3 S4 OC (O1 & O2 & O3 & O4). unfold sized in *. assert (N : nScaSu nDis nVesFa nFas = surfaces nDis nVesFa nFas) by (unfold nScaSu, surfaces; destruct (nDis <? 3); lia).
  assert (C3 : forall k n m (raw : list V), length raw = k * n * m -> exists t, raw = concat (concat t) /\ table3 k n m t).
  { intros k n m raw L. destruct (chunk m (k * n) raw L) as (t & E & (Lt & R)). destruct (chunk n k t Lt) as (t' & E' & (Lt' & R')). exists t'. split; [now rewrite <- E'|]. split; [exact Lt'|]. intros b Hb. split; [auto|]. intros r Hr. apply R. rewrite E'. apply in_concat. eauto. }
  assert (L2 : forall n m (t : list (list V)), table2 n m t -> length (concat t) = n * m) by (intros n m t (L & R); rewrite (concat_len t m) by auto; now rewrite L).
  assert (L3 : forall k n m (t : list (list (list V))), table3 k n m t -> length (concat (concat t)) = k * n * m).
  { intros k n m t (L & R). rewrite (concat_len _ m), (concat_len t n), L; auto; [intros b Hb; apply (R b Hb)|]. intros r Hr. apply in_concat in Hr. destruct Hr as (b & Hb & Hr). apply (R b Hb). auto. }
  split; [split|split; [split|split]].
  - unfold svChars. destruct (Nat.eqb_spec (snd gc) (nSvs * nDis)) as [E|NE]; cbn [check bind]; [|discriminate]. destruct (chunk nDis nSvs (fst gc)) as (t & Q & T); [lia|]. rewrite (copy2_ok _ _ _ _ _ t) by auto. intros X. injection X as <-. auto.
  - intros (T & E). unfold svChars. rewrite <- S0, <- E, (L2 _ _ _ T), Nat.eqb_refl. cbn [check bind]. apply copy2_ok; auto.
  - unfold ops. rewrite N. destruct (Nat.eqb_spec (snd (g_scatter V g)) (nMds * nScs)) as [E1|]; cbn [check bind]; [|discriminate]. destruct (chunk nScs nMds (fst (g_scatter V g))) as (t1 & Q1 & T1); [lia|]. rewrite (copy2_ok _ _ _ _ _ t1) by auto. cbn [bind].
    destruct (Nat.eqb_spec (snd (g_scattersurf V g)) (nMds * surfaces nDis nVesFa nFas * nSfs)) as [E2|]; cbn [check bind]; [|discriminate]. destruct (C3 (surfaces nDis nVesFa nFas) nMds nSfs (fst (g_scattersurf V g))) as (t2 & Q2 & T2); [lia|]. rewrite (copy3_ok _ _ _ _ _ _ t2) by auto. cbn [bind].
    destruct (Nat.eqb_spec (snd (g_gather V g)) (nScs * nMds)) as [E3|]; cbn [check bind]; [|discriminate]. destruct (chunk nMds nScs (fst (g_gather V g))) as (t3 & Q3 & T3); [lia|]. rewrite (copy2_ok _ _ _ _ _ t3) by auto. cbn [bind].
    destruct (Nat.eqb_spec (snd (g_sfint V g)) (nFas * nSfs * nMds)) as [E4|]; cbn [check bind]; [|discriminate]. destruct (C3 nFas nSfs nMds (fst (g_sfint V g))) as (t4 & Q4 & T4); [lia|]. rewrite (copy3_ok _ _ _ _ _ _ t4) by auto. cbn [bind]. intros X. injection X as <-. unfold opsShaped. cbn [scatter scatterSurf gather sfInt]. auto 10.
  - intros ((T1 & T2 & T3 & T4) & Q1 & Q2 & Q3 & Q4). destruct c' as [c1 c2 c3 c4]. cbn [scatter scatterSurf gather sfInt] in *. unfold ops. rewrite N. rewrite <- S1, <- S2, <- S3, <- S4, <- Q1, <- Q2, <- Q3, <- Q4. rewrite (L2 _ _ _ T1), (L3 _ _ _ _ T2), (L2 _ _ _ T3), (L3 _ _ _ _ T4).
    rewrite (Nat.mul_comm nMds (surfaces nDis nVesFa nFas)), !Nat.eqb_refl. cbn [check bind]. rewrite (copy2_ok _ _ _ _ _ c1) by auto. cbn [bind]. rewrite (copy3_ok _ _ _ _ _ _ c2) by auto. cbn [bind]. rewrite (copy2_ok _ _ _ _ _ c3) by auto. cbn [bind]. rewrite (copy3_ok _ _ _ _ _ _ c4) by auto. reflexivity.
  - intros H. unfold svChars. destruct (Nat.eqb_spec (snd gc) (nSvs * nDis)); [contradiction|reflexivity].
  - unfold ops. rewrite N. destruct (Nat.eqb_spec (snd (g_scatter V g)) (nMds * nScs)) as [E1|]; cbn [check bind]; [|auto]. destruct (chunk nScs nMds (fst (g_scatter V g))) as (t1 & Q1 & T1); [lia|]. rewrite (copy2_ok _ _ _ _ _ t1) by auto. cbn [bind].
    destruct (Nat.eqb_spec (snd (g_scattersurf V g)) (nMds * surfaces nDis nVesFa nFas * nSfs)) as [E2|]; cbn [check bind]; [|auto]. destruct (C3 (surfaces nDis nVesFa nFas) nMds nSfs (fst (g_scattersurf V g))) as (t2 & Q2 & T2); [lia|]. rewrite (copy3_ok _ _ _ _ _ _ t2) by auto. cbn [bind].
    destruct (Nat.eqb_spec (snd (g_gather V g)) (nScs * nMds)) as [E3|]; cbn [check bind]; [|auto]. destruct (chunk nMds nScs (fst (g_gather V g))) as (t3 & Q3 & T3); [lia|]. rewrite (copy2_ok _ _ _ _ _ t3) by auto. cbn [bind].
    destruct (Nat.eqb_spec (snd (g_sfint V g)) (nFas * nSfs * nMds)) as [E4|]; cbn [check bind]; [|auto]. destruct (C3 nFas nSfs nMds (fst (g_sfint V g))) as (t4 & Q4 & T4); [lia|]. rewrite (copy3_ok _ _ _ _ _ _ t4) by auto. cbn [bind]. eauto.
Qed.
Print Assumptions C104_ops_stop.
Example C104_ops_stop_ex : svChars nat 3 1 ([1; 2; 3; 4], 4) [[0]; [0]; [0]] = Er Echeck /\ svChars nat 4 1 ([1; 2; 3; 4], 4) [[0]; [0]; [0]; [0]] = Ok [[1]; [2]; [3]; [4]].
Proof. split; reflexivity. Qed.

(** The size entry is computed from the first line and the number of lines: a row with a missing entry is not noticed, its last entries are zeros. *)
Theorem C104_ragged_refuted : ~ (forall nDis nVesFa nVesEl nFas nSfs nScs sv g o c, shaped nDis nVesFa nVesEl nFas nSfs nScs o -> built sv (g_scsv g) -> connect nDis nVesFa nVesEl nFas nSfs nScs g o = Ok c -> scSv c = map (map short) sv).
Proof.
  intros H. set (sv := [[1; 2]; [0]; [2; 3]; [0; -1]; [3; -1]]%Z). set (g := {| g_scsv := ([1; 2; 0; 0; 2; 3; 0; 65535; 3; 65535]%Z, 10); g_scsfsc := (concat (map (map short) exSc), 10); g_sctysf := (concat exTy, 6); g_scdgad := (concat exAd, 1) |}).
  assert (X : exists c, connect 1 1 2 2 1 3 g exO = Ok c) by (eexists; vm_compute; reflexivity). destruct X as (c & E). assert (Y := H 1 1 2 2 1 3 sv g exO c). rewrite E in Y. vm_compute in E. injection E as <-. assert (Z : map (map short) sv <> [[1; 2]; [0; 0]; [2; 3]; [0; 65535]; [3; 65535]]%Z) by discriminate.
  apply Z. symmetry. apply Y; [|reflexivity|reflexivity]. repeat split; try reflexivity; intros r Hr; cbn in Hr; repeat (destruct Hr as [<-|Hr]; [reflexivity|]); destruct Hr.
Qed.
Print Assumptions C104_ragged_refuted.

Lemma dim_any F : forall (t : list (list F)) d0 d1, (forall r, In r t -> r <> []) -> 0 < d1 -> fold_left (dim F) t (d0, d1, 0) = (d0, d1 + length t, 0).
Proof.
  induction t as [|r t IH]; intros d0 d1 R D; [cbn; now rewrite Nat.add_0_r|]. cbn [fold_left]. assert (E : dim F (d0, d1, 0) r = (d0, d1 + 1, 0)). { unfold dim. destruct (Nat.eqb_spec d1 0) as [->|_]; [lia|]. destruct r; [destruct (R [] (or_introl eq_refl)); reflexivity|]. reflexivity. }
  rewrite E, IH; [|intros; apply R; now right|lia]. cbn [length]. f_equal. f_equal. lia.
Qed.
Lemma mapM_stop {A B} (f : A -> res B) l : (forall x, In x l -> f x = Er Echeck \/ exists y, f x = Ok y) -> (mapM f l = Er Echeck \/ exists y, mapM f l = Ok y) /\ ((exists x, In x l /\ f x = Er Echeck) -> mapM f l = Er Echeck).
Proof.
  induction l as [|a l IH]; intros H; [split; [right; exists []; reflexivity|intros (x & [] & _)]|]. destruct IH as (I1 & I2); [intros; apply H; now right|]. cbn [mapM]. destruct (H a (or_introl eq_refl)) as [E|(y & E)]; rewrite E; cbn [bind]; [split; auto|]. split.
  - destruct I1 as [E'|(z & E')]; rewrite E'; cbn [bind]; eauto.
  - intros (x & [->|Hx] & Ex); [congruence|]. rewrite I2; [reflexivity|eauto].
Qed.
Lemma toId_either v : toId v = Er Echeck \/ exists y, toId v = Ok y.
Proof. unfold toId. destruct (v =? -1)%Z; [eauto|]. destruct (_ && _); cbn [check bind]; eauto. Qed.
(** Rows with more entries than the first one and ids which are no unsigned shorts (other than -1) are not compiled. *)
Theorem C104_rejected : forall t r0 rest, t = r0 :: rest -> (forall r, In r t -> r <> []) ->
  (exists r, In r t /\ (length r0 < length r \/ exists v, In v r /\ (v < -1 \/ 65535 < v)%Z)) -> forall g, ~ built t g.
Proof.
  intros t r0 rest E NB (r & Hr & BAD) g H. unfold built in H. assert (X : convert Z Z 0%Z toId (write2d Z t) = Er Echeck); [|congruence]. clear H. rewrite write2d_id. unfold convert.
  assert (D : fold_left (dim Z) t (0, 0, 0) = (length r0, length t, 0)).
  { subst t. cbn [fold_left]. assert (E : dim Z (0, 0, 0) r0 = (length r0, 1, 0)) by (unfold dim; cbn [Nat.eqb]; destruct r0; [destruct (NB [] (or_introl eq_refl)); reflexivity|reflexivity]). rewrite E, dim_any; [reflexivity|intros; apply NB; now right|lia]. }
  rewrite D. assert (L0 : 0 < length r0) by (subst t; destruct r0; [destruct (NB [] (or_introl eq_refl)); reflexivity|cbn; lia]). assert (L1 : 0 < length t) by (subst t; cbn; lia). destruct (Nat.ltb_spec 0 (length r0)); [|lia]. destruct (Nat.ltb_spec 0 (length t)); [|lia]. cbn [check bind Nat.ltb Nat.leb Nat.max blocks].
  rewrite <- (app_nil_r t) at 2. rewrite block_app. cbn [concat]. rewrite app_nil_r. destruct (mapM_stop (initRow Z Z 0%Z toId (length r0)) t) as (_ & ST).
  - intros x _. unfold initRow. destruct (length x <=? length r0); cbn [check bind]; [|auto]. destruct (mapM_stop toId x) as ([Q|(y & Q)] & _); [intros; apply toId_either| |]; rewrite Q; cbn [bind]; eauto.
  - rewrite ST; [reflexivity|]. exists r. split; [exact Hr|]. unfold initRow. destruct (Nat.leb_spec (length r) (length r0)); cbn [check bind]; [|reflexivity]. destruct BAD as [BAD|(v & Hv & BV)]; [lia|]. destruct (mapM_stop toId r) as (_ & S2); [intros; apply toId_either|]. rewrite S2; [reflexivity|]. exists v. split; [exact Hv|].
    unfold toId, umax. destruct (Z.eqb_spec v (-1)); [lia|]. destruct (Z.leb_spec 0 v), (Z.leb_spec v 65535); try lia; reflexivity.
Qed.
Print Assumptions C104_rejected.
Example C104_rejected_ex : convert Z Z 0%Z toId (write2d Z [[0; 1]; [1; 2; 3]]%Z) = Er Echeck /\ convert Z Z 0%Z toId (write2d Z [[0; 1]; [1; -2]]%Z) = Er Echeck.
Proof. split; reflexivity. Qed.

(** Rows with fewer entries than the first one are completed with zeros at their ends; the size does not show it. *)
Theorem C104_padded : forall t r0 rest, t = r0 :: rest -> (forall r, In r t -> 0 < length r <= length r0) -> idsOk t ->
  built t (concat (map (fun r => map short r ++ repeat 0%Z (length r0 - length r)) t), length r0 * length t).
Proof.
  intros t r0 rest E NB I. assert (NE : forall r, In r t -> r <> []) by (intros r Hr ->; specialize (NB [] Hr); cbn in NB; lia). unfold built. rewrite write2d_id. unfold convert.
  assert (D : fold_left (dim Z) t (0, 0, 0) = (length r0, length t, 0)).
  { subst t. cbn [fold_left]. assert (E : dim Z (0, 0, 0) r0 = (length r0, 1, 0)) by (unfold dim; cbn [Nat.eqb]; destruct r0; [destruct (NE [] (or_introl eq_refl)); reflexivity|reflexivity]). rewrite E, dim_any; [reflexivity|intros; apply NE; now right|lia]. }
  rewrite D. assert (L0 : 0 < length r0) by (assert (H := NB r0); subst t; specialize (H (or_introl eq_refl)); lia). assert (L1 : 0 < length t) by (subst t; cbn; lia). destruct (Nat.ltb_spec 0 (length r0)); [|lia]. destruct (Nat.ltb_spec 0 (length t)); [|lia]. cbn [check bind Nat.ltb Nat.leb Nat.max blocks].
  rewrite <- (app_nil_r t) at 2. rewrite block_app. cbn [concat]. rewrite app_nil_r.
  assert (M : forall r, (forall v, In v r -> idOk v) -> mapM toId r = Ok (map short r)).
  { induction r as [|v r IH]; intros H'; [reflexivity|]. cbn [mapM map]. rewrite toId_short by (apply H'; now left). cbn [bind]. rewrite IH by (intros; apply H'; now right). reflexivity. }
  assert (X : forall l, (forall r, In r l -> In r t) -> mapM (initRow Z Z 0%Z toId (length r0)) l = Ok (map (fun r => map short r ++ repeat 0%Z (length r0 - length r)) l)).
  { induction l as [|r l IH]; intros S; [reflexivity|]. cbn [mapM map]. assert (Hr := S r (or_introl eq_refl)). assert (B := NB r Hr). unfold initRow at 1. destruct (Nat.leb_spec (length r) (length r0)); [|lia]. cbn [check bind]. rewrite M by (intros v Hv; eapply I; eauto). cbn [bind]. rewrite map_length. rewrite IH by (intros; apply S; now right). reflexivity. }
  rewrite X by auto. cbn [bind]. f_equal. f_equal. lia.
Qed.
Print Assumptions C104_padded.
Example C104_padded_ex : convert Z Z 0%Z toId (write2d Z [[7; 8; 9]; [4]; [5; -1]]%Z) = Ok ([7; 8; 9; 4; 0; 0; 5; 65535; 0]%Z, 9).
Proof. reflexivity. Qed.
