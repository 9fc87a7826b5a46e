(** Property C79: balance of conserved quantities.  The fluxes of the local time stepping scheme leave nothing behind at the inner faces, whatever
    the elements' time groups, schedules and distribution: what is conserved only changes by what leaves the mesh at the outflow boundaries.  For
    elastic waves the momentum is conserved. *)
From Coq Require Import Reals Lra ZArith Ring.
From Verif Require Import ElGen Elastic ElSpec ElWave ElFlux ElFace InitFs ElMom.
From Verif Require Import SchedModel DistModel DistProofs DistLive DistFair Props_Sched Props_Dist EndSpec EndToEnd.
From Verif Require Import Util MeshConn MatMul Props_Mat Sparse Lts Ader AderSpec AderV AderCk Props_Ader Props_AderR AderEl AderElSpec AderElV AderLtsSpec AderLts Props_AderEl AderConsSpec AderCons Props_End.
Local Open Scope nat_scope.

Section C79.
Context {T : Type}.
Variables (A : alg T) (cf : conf) (U : @setup T).
Variables (mesh : nat -> nat -> face) (lvl : nat -> nat).
Variable w : nat -> nat -> T.
Local Notation nMd := (nModes (cEl cf) (cSp cf)).
Local Notation nMdFa := (nModesFa (cEl cf) (cSp cf)).
Local Notation nFa := (nElFas (cEl cf)).

(** Whenever all elements have reached the same time, the total of the elements' states is the initial one and what came in at the outflow boundaries. *)
Theorem C79_balance dt hdt q0 Q c : 0 < nMd -> 0 < nMdFa -> conservative A cf U mesh w -> meshSym cf U mesh lvl -> scheme A cf U mesh lvl dt hdt q0 Q -> synchronized U lvl c ->
  total A cf U w (fun el => Q el (c el)) = aAdd A (total A cf U w q0) (outflowed A cf U mesh lvl dt w Q c).
Proof. intros H1 H2 HC HS HQ Hc. now apply (balance A cf U mesh lvl dt hdt w H1 H2 HC HS q0 Q HQ c Hc). Qed.

(** no outflow boundaries *)
Definition closed : Prop := forall el fa, el < uN U -> fa < nFa -> mesh el fa <> Outflow.
Lemma closed_outflowed dt Q c : closed -> outflowed A cf U mesh lvl dt w Q c = aZero A.
Proof.
  intros HO. unfold outflowed. apply (sum_0 A). intros el Hel. apply (sum_0 A). intros fa Hfa. unfold isOut. specialize (HO el fa Hel Hfa). destruct (mesh el fa); [contradiction|reflexivity|reflexivity].
Qed.
Theorem C79_closed dt hdt q0 Q c : 0 < nMd -> 0 < nMdFa -> conservative A cf U mesh w -> meshSym cf U mesh lvl -> closed -> scheme A cf U mesh lvl dt hdt q0 Q -> synchronized U lvl c ->
  total A cf U w (fun el => Q el (c el)) = total A cf U w q0.
Proof.
  intros H1 H2 HC HS HO HQ Hc. rewrite (C79_balance dt hdt q0 Q c H1 H2 HC HS HQ Hc). rewrite (closed_outflowed dt Q c HO). rewrite (Radd_comm (aRT A)). apply (Radd_0_l (aRT A)).
Qed.

(** The total of the arrays of the solver, for fused simulation [z]. *)
Definition arrayTotal (z : nat) (dofs : list (list T)) : T :=
  AderSpec.sum A (uN U) (fun el => AderSpec.sum A (nQtsE (cEl cf)) (fun x => aMul A (w el x) (nth (pos (cCrs cf) nMd x 0 z) (nth el dofs []) (aZero A)))).
Lemma array_total z s q : 0 < nMd -> z < cCrs cf -> (forall el, el < uN U -> holds A cf (nth el (lE s) []) (nth el (lA s) []) (fun z => q z el)) -> arrayTotal z (lE s) = total A cf U w (q z).
Proof.
  intros Hm Hz H. unfold arrayTotal, total. apply (sum_ext A). intros el Hel. apply (sum_ext A). intros x Hx. destruct (H el Hel) as ((_ & R) & _). now rewrite (R z x 0 Hz Hx Hm).
Qed.

(** Simulations with any number of synchronization intervals, whatever the interleavings of the schedulers, workers and messages of all ranks. *)
Theorem C79_simulation G cross rankOf reg pkL pkN chF K fl M chars J mpi q0 ivs q s0 recv0 net0 :
  0 < nMd -> 0 < nMdFa -> conservative A cf U mesh w -> closed ->
  setUp A cf U G mesh lvl cross rankOf reg pkL pkN chF K fl M chars J mpi -> initial A cf U mesh lvl cross q0 s0 recv0 net0 -> states A cf U G mesh lvl q0 ivs q ->
  (forall iv, In iv ivs -> execution (withF G (iF iv)) (iSt iv) (iLa iv) /\ forall r, r < gR G -> fin (rk (iSt iv (iJ iv)) r) = true) ->
  exists s recv net, simulate A cf U G mesh pkL pkN chF K fl M chars J mpi ivs (s0, recv0, net0) = Ok (s, recv, net) /\
    forall z, z < cCrs cf -> arrayTotal z (lE s) = arrayTotal z (lE s0).
Proof.
  intros H1 H2 HC HO HSU HI HQ HE. destruct (C78_simulation A cf U G mesh lvl cross rankOf reg pkL pkN chF K fl M chars J mpi q0 ivs q s0 recv0 net0 HSU HI HQ HE) as (s & recv & net & E & H).
  exists s, recv, net. split; [exact E|]. intros z Hz. rewrite (array_total z s q H1 Hz H). rewrite (array_total z s0 q0 H1 Hz) by (intros el Hel; now apply HI).
  assert (HS : meshSym cf U mesh lvl). { destruct HSU as (_ & _ & _ & HM & _). intros el fa ne v f Hel Hfa Em. destruct (mesh_back cf U mesh lvl cross M HM el fa ne v f Hel Hfa Em) as (X1 & X2 & _ & X3 & X4). auto. }
  destruct HSU as (_ & _ & _ & _ & _ & _ & _ & _ & HD & _). clear E H HE HI.
  induction HQ as [|ivs q iv Q HQ IH Hsch]; [reflexivity|]. rewrite <- IH.
  apply (C79_closed (iDt iv) (iHdt iv) (q z) (Q z) (updates (withF G (iF iv)) lvl) H1 H2 HC HS HO (Hsch z Hz)).
  intros el ne Hel Hne. unfold updates, spec_steps. cbn. destruct (HD el Hel) as (_ & L1 & _), (HD ne Hne) as (_ & L2 & _).
  rewrite <- !Nat.mul_assoc, <- !Nat.pow_add_r. now replace (gT G - 1 - lvl ne + lvl ne) with (gT G - 1 - lvl el + lvl el) by lia.
Qed.
End C79.

(** *** Momentum of elastic waves *)
Section Momentum.
Variables (cf : conf) (U : @setup R) (mesh : nat -> nat -> face) (lvl : nat -> nat).
(** material and determinant of the Jacobian of an element *)
Variables (mt : nat -> material) (det : nat -> R).
Local Notation d := (nDis (cEl cf)).
Local Notation nMd := (nModes (cEl cf) (cSp cf)).
Local Notation nMdFa := (nModesFa (cEl cf) (cSp cf)).
Local Notation nFa := (nElFas (cEl cf)).

(** the solvers of a face are those of materials [l] (inside) and [r], normal, tangents, scaled by minus area over determinant (twice for tetrahedrons) *)
Definition faceSolvers (el fa : nat) (l r : material) (n s t : R * R * R) (free : bool) (area : R) : Prop :=
  exists x, setUpFsR (cEl cf) l r n s t free = Ok x /\ let c := scaling 1%R Rplus Rmult Rdiv Ropp (cEl cf) area (det el) in
    fs0 U el fa = map (fun y => Rmult y c) (fst (fst x)) /\ fs1 U el fa = map (fun y => Rmult y c) (snd (fst x)).
(** elements are solids; the two sides of an inner face have opposite normals, the same area and may have different tangents *)
Definition elasticFaces : Prop := forall el fa, el < uN U -> fa < nFa -> solid (mt el) /\ (0 < det el)%R /\
  match mesh el fa with
  | Inner ne v f => exists n s t s' t' area, frameOk (cEl cf) n s t /\ frameOk (cEl cf) (nv n) s' t' /\
      faceSolvers el fa (mt el) (mt ne) n s t false area /\ faceSolvers ne f (mt ne) (mt el) (nv n) s' t' false area
  | Free => exists n s t area, frameOk (cEl cf) n s t /\ faceSolvers el fa (mt el) (mt el) n s t true area
  | Outflow => True
  end.
(** matrices of the reference element: mode 0 is constant; of the modes of a face, only the first one has a mean value; the mean values do not depend
    on face and rotation *)
Definition reference : Prop :=
  (forall di l, di < d -> l < nMd -> ent algR nMd (nth di (uSt U) []) l 0 = 0%R) /\
  (forall fa m, fa < nFa -> 0 < m < nMdFa -> ent algR nMd (intF U fa) m 0 = 0%R) /\
  (forall fa fa', fa < nFa -> fa' < nFa -> ent algR nMd (intF U fa) 0 0 = ent algR nMd (intF U fa') 0 0) /\
  (forall el fa ne v f l, el < uN U -> fa < nFa -> mesh el fa = Inner ne v f -> l < nMd -> ent algR nMdFa (projF U (nFa + (v * nFa + f))) l 0 = ent algR nMdFa (projF U f) l 0).
(** momentum in direction [i]: density times velocity, times the determinant, which is proportional to the volume *)
Definition momentumW (i el x : nat) : R := if x =? nSt d + i then (rho (mt el) * det el)%R else 0%R.

Lemma dims : d = 2 \/ d = 3. Proof. destruct (cEl cf); cbn; auto. Qed.
Lemma nQt_E : nQtsE (cEl cf) = nQt d. Proof. destruct (cEl cf); reflexivity. Qed.
Lemma nSt_M : nQtsM (cEl cf) = nSt d. Proof. destruct (cEl cf); reflexivity. Qed.
Lemma pick n k (f : nat -> R) : k < n -> AderSpec.sum algR n (fun x => Rmult (if x =? k then f x else 0%R) 1%R) = f k.
Proof.
  induction n as [|n IH]; [lia|]. intros Hk. cbn [AderSpec.sum aAdd algR]. destruct (Nat.eq_dec k n) as [->|N].
  - rewrite Nat.eqb_refl. rewrite (sum_0 algR n); [cbn; ring|]. intros x Hx. destruct (Nat.eqb_spec x n); [lia|cbn; ring].
  - rewrite IH by lia. destruct (Nat.eqb_spec n k); [lia|ring].
Qed.
Lemma momentum_column i el fa fs j : i < d -> column algR cf U (momentumW i) el fa fs j =
  (ent algR nMd (intF U fa) 0 0 * (rho (mt el) * det el * nth ((nSt d + i) * nQt d + j) fs 0))%R.
Proof.
  intros Hi. unfold column. cbn [aMul algR]. f_equal. rewrite nQt_E.
  transitivity (AderSpec.sum algR (nQt d) (fun x => Rmult (if x =? nSt d + i then Rmult (Rmult (rho (mt el)) (det el)) (ent algR (nQt d) fs x j) else 0%R) 1%R)).
  - apply (sum_ext algR). intros x Hx. unfold momentumW. cbn [aMul algR]. destruct (x =? nSt d + i); ring.
  - rewrite (pick (nQt d) (nSt d + i) (fun x => Rmult (Rmult (rho (mt el)) (det el)) (ent algR (nQt d) fs x j))) by (unfold nQt; lia). reflexivity.
Qed.
Lemma nth_scale k c (l : list R) : nth k (map (fun y => Rmult y c) l) 0%R = (nth k l 0 * c)%R.
Proof. rewrite <- (map_nth (fun y => Rmult y c)). rewrite Rmult_0_l. reflexivity. Qed.
Lemma det_scaling area e : e <> 0%R -> exists g, (forall e, e <> 0%R -> e * scaling 1%R Rplus Rmult Rdiv Ropp (cEl cf) area e = g)%R.
Proof. intros _. exists (match cEl cf with TET4 => - area * 2 | _ => - area end)%R. intros e' He. unfold scaling. destruct (cEl cf); field; assumption. Qed.

Lemma momentum_conservative i : i < d -> reference -> elasticFaces -> meshSym cf U mesh lvl -> conservative algR cf U mesh (momentumW i).
Proof.
  intros Hi (R1 & R2 & R3 & R4) HF HS. split; [exact R1|]. split; [exact R2|]. split; [exact R4|]. split.
  - intros _ el x _ Hx. rewrite nSt_M in Hx. unfold momentumW. destruct (Nat.eqb_spec x (nSt d + i)); [lia|reflexivity].
  - intros el fa j Hel Hfa Hj. rewrite nQt_E in Hj. destruct (HF el fa Hel Hfa) as (So & De & H). destruct (mesh el fa) as [| |ne v f] eqn:Em; [exact Logic.I| |].
    + destruct H as (n & s & t & area & Fr & x & Ex & E0 & E1). rewrite !momentum_column by exact Hi. rewrite E0, E1, !nth_scale. pose proof (mom_free (cEl cf) (mt el) n s t x i j So Fr Ex Hi Hj) as X. cbn [aAdd aZero algR].
      cbv zeta in X. set (a := nth _ (fst (fst x)) _) in *. set (b := nth _ (snd (fst x)) _) in *. replace b with (- a)%R by lra. ring.
    + destruct (HS el fa ne v f Hel Hfa Em) as (Hne & Hf & _). destruct (HF ne f Hne Hf) as (So' & De' & _).
      destruct H as (n & s & t & s' & t' & area & Fr & Fr' & (x & Ex & E0 & E1) & (x' & Ex' & E0' & E1')). rewrite !momentum_column by exact Hi. rewrite E0, E1', !nth_scale.
      pose proof (mom_face (cEl cf) (mt el) (mt ne) n s t s' t' x x' i j So So' Fr Fr' Ex Ex' Hi Hj) as X. cbn [aAdd aZero algR]. cbv zeta in X. rewrite (R3 f fa Hf Hfa).
      destruct (det_scaling area (det el) ltac:(lra)) as (g & Hg). pose proof (Hg (det el) ltac:(lra)) as G1. pose proof (Hg (det ne) ltac:(lra)) as G2.
      set (c := scaling _ _ _ _ _ _ _ (det el)) in *. set (c' := scaling _ _ _ _ _ _ _ (det ne)) in *. set (a := nth _ (fst (fst x)) _) in *. set (b := nth _ (snd (fst x')) _) in *. set (m := ent _ _ _ _ _).
      transitivity (m * (rho (mt el) * a * (det el * c) + rho (mt ne) * b * (det ne * c')))%R; [ring|]. rewrite G1, G2. transitivity (m * g * (rho (mt el) * a + rho (mt ne) * b))%R; [ring|]. rewrite X. ring.
Qed.

(** The momentum of solids in a mesh with free surfaces is conserved, whatever the materials, local time steps and fluxes. *)
Theorem C79_momentum dt hdt q0 Q c i : 0 < nMd -> 0 < nMdFa -> i < d -> reference -> elasticFaces -> meshSym cf U mesh lvl -> closed cf U mesh ->
  scheme algR cf U mesh lvl dt hdt q0 Q -> synchronized U lvl c -> total algR cf U (momentumW i) (fun el => Q el (c el)) = total algR cf U (momentumW i) q0.
Proof. intros H1 H2 Hi HR HF HS HO HQ Hc. apply (C79_closed algR cf U mesh lvl (momentumW i) dt hdt q0 Q c H1 H2); auto. now apply momentum_conservative. Qed.
(** With outflow boundaries, it changes by what passes them. *)
Theorem C79_momentum_outflow dt hdt q0 Q c i : 0 < nMd -> 0 < nMdFa -> i < d -> reference -> elasticFaces -> meshSym cf U mesh lvl ->
  scheme algR cf U mesh lvl dt hdt q0 Q -> synchronized U lvl c -> total algR cf U (momentumW i) (fun el => Q el (c el)) = (total algR cf U (momentumW i) q0 + outflowed algR cf U mesh lvl dt (momentumW i) Q c)%R.
Proof. intros H1 H2 Hi HR HF HS HQ Hc. apply (C79_balance algR cf U mesh lvl (momentumW i) dt hdt q0 Q c H1 H2); auto. now apply momentum_conservative. Qed.
End Momentum.

(** *** The two triangles of Props_AderEl.v with conservative flux solvers; free surfaces, different weights and time groups *)
Definition xcFs (s : Z) : list (list (list Z)) := map (fun e => repeat (map (fun i => (s * e * Z.of_nat i)%Z) (seq 1 25)) 3) [2; 1]%Z.
Definition xcS : @solver Z := {| mStarE := mStarE xlS; mStarA := mStarA xlS; mSrcA := mSrcA xlS; mFsE0 := xcFs 1; mFsE1 := xcFs (-1); mFsA0 := mFsA0 xlS; mFsA1 := mFsA1 xlS |}.
Definition xcU : @setup Z := {| uStT := exStiffT; uSt := exStiff; uLN := map exF (seq 0 3) ++ map exF (seq 0 3); uFT := repeat [5; 1; 2; 0; 3; 4]%Z 3; uRf := exRfs; uS := xcS; uN := 2 |}.
Definition xcMesh (el fa : nat) : face := match el, fa with 0, 2 => Inner 1 0 1 | 1, 1 => Inner 0 0 2 | _, _ => Free end.
Definition xcW (el x : nat) : Z := match x with 3 => Z.of_nat (S el) | _ => 0%Z end.
Ltac five H := match type of H with ?j < _ => destruct j as [|[|[|[|[|j]]]]]; [| | | | |exfalso; cbn in H; lia] end.
Example xc_conservative : conservative algZ exCfg xcU xcMesh xcW.
Proof.
  split; [|split; [|split; [|split]]].
  - intros di l Hdi Hl. cbn in Hdi. destruct di as [|[|di]]; [| |lia]; three Hl; reflexivity.
  - intros fa m Hfa Hm. assert (m = 1) by (cbn in Hm; lia). subst. three Hfa; reflexivity.
  - intros el fa ne v f l Hel Hfa Em Hl. two Hel; three Hfa; cbn in Em; try discriminate Em; injection Em as <- <- <-; three Hl; reflexivity.
  - intros _ el x Hel Hx. three Hx; reflexivity.
  - intros el fa j Hel Hfa Hj. two Hel; three Hfa; cbn [xcMesh]; five Hj; reflexivity.
Qed.
Example xc_meshSym : meshSym exCfg xcU xcMesh xlLvl.
Proof. intros el fa ne v f Hel Hfa Em. two Hel; three Hfa; cbn in Em; try discriminate Em; injection Em as <- <- <-; (split; [cbn; lia|]); (split; [cbn; lia|]); (split; [cbv; lia|]); exists 0; reflexivity. Qed.
Example xc_closed : closed exCfg xcU xcMesh.
Proof. intros el fa Hel Hfa. two Hel; three Hfa; cbn; discriminate. Qed.
(** two updates of element 0 and one of element 1: the states change, the total does not *)
Example xc_balance : let Q := theQ algZ exCfg xcU xcMesh xlLvl xlDt xlHdt (fun _ => exQ 0) in let c := fun el => match el with 0 => 2 | _ => 1 end in
  scheme algZ exCfg xcU xcMesh xlLvl xlDt xlHdt (fun _ => exQ 0) Q /\ synchronized xcU xlLvl c /\ total algZ exCfg xcU xcW (fun el => Q el (c el)) = total algZ exCfg xcU xcW (fun _ => exQ 0) /\
  fst (Q 0 1) 3 0 <> fst (exQ 0) 3 0.
Proof.
  cbv zeta. set (Q := theQ algZ exCfg xcU xcMesh xlLvl xlDt xlHdt (fun _ => exQ 0)). set (c := fun el => match el with 0 => 2 | _ => 1 end).
  assert (HQ : scheme algZ exCfg xcU xcMesh xlLvl xlDt xlHdt (fun _ => exQ 0) Q). { apply theQ_scheme. intros el fa ne v f Hel Hfa Em. two Hel; three Hfa; cbn in Em; try discriminate Em; injection Em as <- <- <-; cbv; lia. }
  assert (Hc : synchronized xcU xlLvl c) by (intros el ne Hel Hne; two Hel; two Hne; reflexivity).
  split; [exact HQ|]. split; [exact Hc|]. split; [|vm_compute; discriminate].
  apply (C79_closed algZ exCfg xcU xcMesh xlLvl xcW xlDt xlHdt); auto; try (cbv; lia); [exact xc_conservative|exact xc_meshSym|exact xc_closed].
Qed.

(** a simulation on two ranks, with the fair execution of Props_Dist.v *)
Definition xcM2 : adj := {| aFaChars := [2; 2; 0; 2; 2]%N; aOut := 1%N; aFree := 2%N; aElFa := aElFa xlM2; aElFaEl := aElFaEl xlM2; aFId := aFId xlM2; aVId := aVId xlM2 |}.
Example xc_flux : fluxMatrices exCfg (uLN xcU) (uFT xcU).
Proof. split; szd. Qed.
Example xc_setUp : exists K, setUp algZ exCfg xcU ex_G xcMesh xlLvl xlCross xlLvl (fun _ => 1) xePk xePk xeCh K xlFl xcM2 xlChars xlJ true.
Proof.
  destruct (kernelsOf algZ exCfg xcU) as [K|e] eqn:EK; [|exfalso; clear - EK; vm_compute in EK; discriminate]. exists K.
  split; [|split; [exact EK|split; [exact xl_junk|split; [|split; [|split; [reflexivity|split; [discriminate|split; [exact ex_wf|]]]]]]]].
  - split; [cbn; lia|]. split; [exact ex_lowers|]. split; [exact ex_testsLow|]. split; [exact xc_flux|]. split.
    { intros el Hel. two Hel; (split; [exact ex_matrices|exact (proj1 ex_volume)]). }
    repeat (split; [reflexivity|]). split; [|split; [|split]]; (split; [reflexivity|]; intros el Hel; two Hel; szd).
  - intros el fa Hel Hfa. two Hel; three Hfa; (eexists _, _; split; [at2t|]; split; [reflexivity|]; cbn; try now split);
    (split; [reflexivity|]; split; [reflexivity|]; split; [at2t|]; split; [at2t|]; do 3 (split; [lia|]); split; [reflexivity|]; split; [cbv; lia|]; split; [eexists; at2t|reflexivity]).
  - intros el Hel. two Hel; (eexists; split; [reflexivity|]; split; [split; reflexivity|]; intros fa Hfa; three Hfa; (do 3 (split; [cbn; lia|]); split; [|split]; reflexivity)).
  - split; [|split; [exact xe_packages|split; [exact xe_packages|split; [|split; [|split]]]]].
    + intros el Hel. destruct el as [|[|el]]; [| |cbn in Hel; lia]; cbv; lia.
    + intros i el fa Hi Hin. cbn in Hi. destruct i as [|[|[|[|i]]]]; cbn in Hin; try contradiction; try lia; (destruct Hin as [E|[]]); injection E as <- <-; (split; [cbn; lia|]); (split; [cbn; lia|]); (split; [reflexivity|]); eexists _, _, _; repeat split.
    + intros i Hi. cbn in Hi. destruct i as [|[|[|[|i]]]]; cbn; try lia; repeat constructor; intros [].
    + intros i j el fa Hi Hj Hin Hin'. cbn in Hi, Hj. destruct i as [|[|[|[|i]]]]; cbn in Hin; try contradiction; try lia; (destruct Hin as [E|[]]); injection E as <- <-; destruct j as [|[|[|[|j]]]]; cbn in Hin'; try contradiction; try lia; destruct Hin' as [E'|[]]; discriminate.
    + intros el fa ne v f Hel Hfa Em. destruct el as [|[|el]]; [| |cbn in Hel; lia]; three Hfa; cbn in Em; try discriminate Em; cbn.
      * exists 2. split; [lia|now left].
      * exists 3. split; [lia|now left].
Qed.
Example xc_simulation : exists K iv s recv net, simulate algZ exCfg xcU ex_G xcMesh xePk xePk xeCh K xlFl xcM2 xlChars xlJ true [iv] (xlS0 xlSend, xlRecv, xlNet) = Ok (s, recv, net) /\
  forall z, z < 2 -> arrayTotal algZ exCfg xcU xcW z (lE s) = arrayTotal algZ exCfg xcU xcW z [exDofsE; exDofsE].
Proof.
  destruct xc_setUp as (K & HSU). destruct (C04_fair_termination ex_G ex_st ex_la ex_wf ex_execution ex_fair) as (j & HF).
  exists K, (mkIv (gF ex_G) xlDt xlHdt (fun _ _ _ _ => []) ex_st ex_la j).
  assert (Gr : graded exCfg xcU xcMesh xlLvl). { intros el fa ne v f Hel Hfa Em. two Hel; three Hfa; cbn in Em; try discriminate Em; injection Em as <- <- <-; cbv; lia. }
  set (iv := mkIv _ _ _ _ _ _ _).
  assert (HI : initial algZ exCfg xcU xcMesh xlLvl xlCross (fun z _ => exQ z) (xlS0 xlSend) xlRecv xlNet).
  { split; [do 6 (split; [reflexivity|]); split; [reflexivity|]; split; [szd|]; split; reflexivity|]. split; [reflexivity|]. split; [reflexivity|].
    intros el Hel. two Hel; (split; [exact ex_dofs|]; split; [reflexivity|]; split; [intros X; vm_compute in X; (reflexivity || discriminate X)|]; split; [intros X; vm_compute in X; (reflexivity || discriminate X)|];
      intros fa Hfa; three Hfa; first [split; reflexivity|eexists _, _; split; [reflexivity|]; split; [szd|]; split; [reflexivity|szd]]). }
  pose proof (St_snoc algZ exCfg xcU ex_G xcMesh xlLvl (fun z _ => exQ z) [] _ iv (fun z => theQ algZ exCfg xcU xcMesh xlLvl xlDt xlHdt (fun _ => exQ z)) (St_nil _ _ _ _ _ _ _) (fun z _ => theQ_scheme algZ exCfg xcU xcMesh xlLvl xlDt xlHdt (fun _ => exQ z) Gr)) as HQ.
  apply (C79_simulation algZ exCfg xcU xcMesh xlLvl xcW ex_G xlCross xlLvl (fun _ => 1) xePk xePk xeCh K xlFl xcM2 xlChars xlJ true (fun z _ => exQ z) [iv] _ (xlS0 xlSend) xlRecv xlNet ltac:(cbv; lia) ltac:(cbv; lia) xc_conservative xc_closed HSU HI HQ).
  intros iv' [<-|[]]. split; [exact ex_execution|]. intros r Hr. now apply HF.
Qed.

Print Assumptions C79_balance.
Print Assumptions C79_closed.
Print Assumptions C79_simulation.
Print Assumptions C79_momentum.
Print Assumptions C79_momentum_outflow.
