(** Property C78: a simulation from end to end.  Whatever the interleaving of the schedulers, workers and messages of all ranks, the solver's
    arrays at a synchronization point hold the states of the local time stepping scheme. *)
From Coq Require Import ZArith Ring.
From Verif Require Import SchedModel DistModel DistProofs DistLive DistFair Props_Sched Props_Dist EndSpec EndToEnd.
From Verif Require Import Util MeshConn MatMul Props_Mat Sparse Lts Ader AderSpec AderV AderCk Props_Ader AderEl AderElSpec AderElV AderLtsSpec AderLts Props_AderEl.
Local Open Scope nat_scope.

Section C78.
Context {T : Type}.
Variables (A : alg T) (cf : conf) (U : @setup T).
Variables (G : gcfg) (mesh : nat -> nat -> face) (lvl : nat -> nat) (cross : nat -> nat -> bool) (rankOf reg : nat -> nat) (pkL pkN : nat -> nat -> nat -> nat -> nat * nat) (chF : nat -> list (nat * nat)).
Variables (K : @kernels T) (fl : ltsFlags) (M : adj) (chars : list N) (J : @junk T) (mpi : bool).
Local Notation nFa := (nElFas (cEl cf)).
Local Notation nCr := (cCrs cf).

(** the set-up of solver, mesh and distribution *)
Definition setUp : Prop := good A cf U /\ kernelsOf A cf U = Ok K /\ junkOk cf J /\ meshOk cf U mesh lvl cross M /\ charsOk cf U mesh lvl fl chars /\ length (aVId M) = uN U /\
  (mpi = false -> forall el fa, el < uN U -> fa < nFa -> crosses mesh cross el fa = false) /\
  wf G /\ distributed G (uN U) nFa mesh lvl cross rankOf reg pkL pkN chF.
(** number of updates of an element until the synchronization point *)
Definition updates (el : nat) : nat := spec_steps (rcfg G 0) (lvl el).

Lemma mesh_back : meshOk cf U mesh lvl cross M -> forall el fa ne v f, el < uN U -> fa < nFa -> mesh el fa = Inner ne v f -> ne < uN U /\ f < nFa /\ cross ne f = cross el fa /\ (lvl el <= S (lvl ne) /\ lvl ne <= S (lvl el)) /\ exists v', mesh ne f = Inner el v' fa.
Proof.
  intros HM el fa ne v f Hel Hfa Em. destruct (HM el fa Hel Hfa) as (fid & ch & _ & _ & X). rewrite Em in X. destruct X as (_ & _ & _ & _ & _ & X1 & X2 & X3 & X4 & X5). repeat (split; [assumption|]).
  destruct (cross el fa); [destruct X5 as (_ & X5); eauto|destruct X5 as (_ & X5); exact X5].
Qed.

Variables (dt hdt : nat -> nat -> T) (pts : nat -> nat -> nat -> nat -> list T).
Local Notation ops st la j := (opsUpTo G mesh pkL pkN chF pts st la j).
Local Notation run := (runOps A cf U mesh dt hdt K fl M chars J mpi).

(** At any time of any execution: the steps of the solver done so far access no memory out of bounds, read no absent buffer and find the
    messages they need; an element which has finished its updates holds their state. *)
Theorem C78_no_error q0 Q s0 recv0 net0 st la j : setUp -> (forall z, z < nCr -> scheme A cf U mesh lvl dt hdt (q0 z) (Q z)) ->
  initial A cf U mesh lvl cross q0 s0 recv0 net0 -> execution G st la ->
  exists s recv net, run (ops st la j) (s0, recv0, net0) = Ok (s, recv, net) /\
    forall el w w', el < uN U -> w < gW G (rankOf el) -> w' < gW G (rankOf el) -> inPk (pkL (rankOf el) (lvl el) (reg el) w) el -> inPk (pkN (rankOf el) (lvl el) (reg el) w') el ->
      let n := exe (rk (st j) (rankOf el)) (lvl el) (reg el) w in let n' := exe (rk (st j) (rankOf el)) (lvl el) (4 + reg el) w' in
      n' <= n <= S n' /\ (n = n' -> holds A cf (nth el (lE s) []) (nth el (lA s) []) (fun z => Q z el n)).
Proof.
  intros (HU & HK & HJ & HM & HC & HV & HP & WF & HD) HQ HI EX.
  destruct (exec_ok cf U G mesh lvl cross rankOf reg pkL pkN chF pts WF HD (mesh_back HM) st la j EX) as (L & N & Se & R & HS & R1 & R2 & _).
  destruct (C77_schedule A cf U mesh lvl dt hdt cross K fl M chars J mpi q0 Q _ L N Se R s0 recv0 net0 HU HK HJ HM HC HV HP HQ HI HS) as (s & recv & net & E & H).
  exists s, recv, net. split; [exact E|]. intros el w w' Hel Hw Hw' Hin Hin'. destruct HD as (D1 & _). destruct (D1 el Hel) as (Hr & Hg & He). cbv zeta.
  rewrite <- (R1 _ _ _ _ _ Hr Hg He Hw Hin), <- (R2 _ _ _ _ _ Hr Hg He Hw' Hin'). destruct (H el Hel) as (H1 & H2). split; [exact H1|]. intros EL. rewrite EL. now apply H2.
Qed.

(** At the synchronization point, every element holds the state of the scheme after all of its updates, and the arrays are ready for the next
    synchronization interval: no message is left. *)
Theorem C78_interval q0 Q s0 recv0 net0 st la j : setUp -> (forall z, z < nCr -> scheme A cf U mesh lvl dt hdt (q0 z) (Q z)) ->
  initial A cf U mesh lvl cross q0 s0 recv0 net0 -> execution G st la -> (forall r, r < gR G -> fin (rk (st j) r) = true) ->
  exists s recv net, run (ops st la j) (s0, recv0, net0) = Ok (s, recv, net) /\ initial A cf U mesh lvl cross (fun z el => Q z el (updates el)) s recv net.
Proof.
  intros (HU & HK & HJ & HM & HC & HV & HP & WF & HD) HQ HI EX HF.
  destruct (exec_ok cf U G mesh lvl cross rankOf reg pkL pkN chF pts WF HD (mesh_back HM) st la j EX) as (L & N & Se & R & HS & HR).
  assert (HQ' : forall z, z < nCr -> forall el k, el < uN U -> eqSt (Q z el (S k)) (update A cf U mesh lvl dt hdt (Q z) el k)) by (intros z Hz el k Hel; now apply (HQ z Hz el Hel)).
  pose proof (initial_inv A cf U mesh lvl dt hdt cross M mpi HV HP Q HQ' q0 s0 recv0 net0 HI (fun z el Hz Hel => proj1 (HQ z Hz el Hel))) as I0.
  destruct (run_schedule A cf U mesh lvl dt hdt cross K fl M chars J mpi HU HK HJ HM HC HV HP Q HQ' _ L N Se R s0 recv0 net0 HS I0) as (s & recv & net & E & I).
  destruct (fin_counts cf U G mesh lvl cross rankOf reg pkL pkN chF pts WF HD (mesh_back HM) (st j) L N Se R (exec_greach G st la EX j) HF HR) as (F1 & F2).
  exists s, recv, net. split; [exact E|].
  assert (X : initial A cf U mesh lvl cross (fun z el => Q z el (N el)) s recv net).
  { eapply inv_initial; eauto. intros el Hel. destruct (F1 el Hel). congruence. }
  destruct X as (X1 & X2 & X3 & X4). split; [exact X1|]. split; [exact X2|]. split; [exact X3|]. intros el Hel. destruct (X4 el Hel) as (Y1 & Y2). split; [|exact Y2]. destruct (F1 el Hel) as (_ & FN). unfold updates. now rewrite <- FN.
Qed.

(** Every fair execution gets there. *)
Theorem C78_fair q0 Q s0 recv0 net0 st la : setUp -> (forall z, z < nCr -> scheme A cf U mesh lvl dt hdt (q0 z) (Q z)) ->
  initial A cf U mesh lvl cross q0 s0 recv0 net0 -> execution G st la -> fair G st la ->
  exists j s recv net, run (ops st la j) (s0, recv0, net0) = Ok (s, recv, net) /\
    forall el, el < uN U -> holds A cf (nth el (lE s) []) (nth el (lA s) []) (fun z => Q z el (updates el)).
Proof.
  intros HSU HQ HI EX FA. assert (WF := HSU). destruct WF as (_ & _ & _ & _ & _ & _ & _ & WF & _). destruct (C04_fair_termination G st la WF EX FA) as (j & HF).
  destruct (C78_interval q0 Q s0 recv0 net0 st la j HSU HQ HI EX (fun r Hr => proj1 (HF r Hr))) as (s & recv & net & E & _ & _ & _ & H). exists j, s, recv, net. split; [exact E|]. intros el Hel. now apply H.
Qed.
End C78.

(** *** Simulations with several synchronization intervals *)
Section Intervals.
Context {T : Type}.
Variables (A : alg T) (cf : conf) (U : @setup T).
Variables (G : gcfg) (mesh : nat -> nat -> face) (lvl : nat -> nat) (cross : nat -> nat -> bool) (rankOf reg : nat -> nat) (pkL pkN : nat -> nat -> nat -> nat -> nat * nat) (chF : nat -> list (nat * nat)).
Variables (K : @kernels T) (fl : ltsFlags) (M : adj) (chars : list N) (J : @junk T) (mpi : bool).

(** A synchronization interval: number of full time steps of the largest group, time steps of the groups' updates and their halves (the last ones
    are shortened to reach the synchronization point), receivers' times, execution of the ranks, step at which it is over. *)
Record interval := mkIv { iF : nat; iDt : nat -> nat -> T; iHdt : nat -> nat -> T; iPts : nat -> nat -> nat -> nat -> list T; iSt : nat -> gst; iLa : nat -> option glabel; iJ : nat }.
Definition withF (n : nat) : gcfg := mkG (gR G) (gT G) (gW G) n (gC G).
(** the states of the elements after the intervals' updates *)
Inductive states (q0 : nat -> nat -> @state T) : list interval -> (nat -> nat -> @state T) -> Prop :=
| St_nil : states q0 [] q0
| St_snoc ivs q iv Q : states q0 ivs q -> (forall z, z < cCrs cf -> scheme A cf U mesh lvl (iDt iv) (iHdt iv) (q z) (Q z)) ->
    states q0 (ivs ++ [iv]) (fun z el => Q z el (updates (withF (iF iv)) lvl el)).
(** Models the loop over the synchronization points, src/main.cpp:313-397, without output *)
Fixpoint simulate (ivs : list interval) (s : @lstate T * list (@buffer T) * @msgs T) : res (@lstate T * list (@buffer T) * @msgs T) :=
  match ivs with
  | [] => Ok s
  | iv :: ivs => s <- runOps A cf U mesh (iDt iv) (iHdt iv) K fl M chars J mpi (opsUpTo (withF (iF iv)) mesh pkL pkN chF (iPts iv) (iSt iv) (iLa iv) (iJ iv)) s;; simulate ivs s
  end.
Lemma simulate_app ivs ivs' s : simulate (ivs ++ ivs') s = (s <- simulate ivs s;; simulate ivs' s).
Proof. revert s. induction ivs as [|iv ivs IH]; intros s; [reflexivity|]. cbn [app simulate]. destruct (runOps _ _ _ _ _ _ _ _ _ _ _ _ _ s); [cbn [bind]; apply IH|reflexivity]. Qed.

Theorem C78_simulation q0 ivs q s0 recv0 net0 : setUp A cf U G mesh lvl cross rankOf reg pkL pkN chF K fl M chars J mpi -> initial A cf U mesh lvl cross q0 s0 recv0 net0 -> states q0 ivs q ->
  (forall iv, In iv ivs -> execution (withF (iF iv)) (iSt iv) (iLa iv) /\ forall r, r < gR G -> fin (rk (iSt iv (iJ iv)) r) = true) ->
  exists s recv net, simulate ivs (s0, recv0, net0) = Ok (s, recv, net) /\ forall el, el < uN U -> holds A cf (nth el (lE s) []) (nth el (lA s) []) (fun z => q z el).
Proof.
  intros HSU HI HQ HE. assert (X : exists s recv net, simulate ivs (s0, recv0, net0) = Ok (s, recv, net) /\ initial A cf U mesh lvl cross q s recv net).
  { induction HQ as [|ivs q iv Q HQ IH Hsch].
    - exists s0, recv0, net0. split; [reflexivity|exact HI].
    - destruct IH as (s & recv & net & E & I). { intros iv' Hin. apply HE. apply in_or_app. now left. }
      destruct (HE iv) as (EX & HF). { apply in_or_app. right. now left. }
      assert (HSU' : setUp A cf U (withF (iF iv)) mesh lvl cross rankOf reg pkL pkN chF K fl M chars J mpi) by exact HSU.
      destruct (C78_interval A cf U (withF (iF iv)) mesh lvl cross rankOf reg pkL pkN chF K fl M chars J mpi (iDt iv) (iHdt iv) (iPts iv) q Q s recv net (iSt iv) (iLa iv) (iJ iv) HSU' Hsch I EX HF) as (s' & recv' & net' & E' & I').
      exists s', recv', net'. split; [|exact I']. rewrite simulate_app, E. cbn [bind simulate]. rewrite E'. reflexivity. }
  destruct X as (s & recv & net & E & _ & _ & _ & I). exists s, recv, net. split; [exact E|]. intros el Hel. now apply I.
Qed.
End Intervals.

(** *** The two triangles of Props_AderEl.v on two ranks with one and two workers; the fair execution of Props_Dist.v.  Channels 0 and 1 have no
    faces: the ranks' elements are in different time groups. *)
Definition xePk (r g e w : nat) : nat * nat := match r, g, e, w with 0, 0, 1, 0 => (0, 1) | 1, 1, 1, 1 => (1, 1) | _, _, _, _ => (0, 0) end.
Definition xeCh (i : nat) : list (nat * nat) := match i with 2 => [(0, 2)] | 3 => [(1, 1)] | _ => [] end.
Lemma xe_packages : packages ex_G 2 xlLvl xlLvl (fun _ => 1) xePk.
Proof.
  split.
  - intros r g e w Hr Hg He Hw. cbn in Hr, Hg. unfold inPk. destruct r as [|[|r]]; [| |lia]; destruct g as [|[|g]]; try lia; destruct e as [|[|e]]; try lia; (destruct w as [|[|w]]; [| |cbn in Hw; lia]); cbn; (split; [lia|]); intros el Hel; try lia;
      assert (El : el = 0 \/ el = 1) by lia; destruct El as [-> | ->]; try lia; repeat split.
  - intros el Hel. destruct el as [|[|el]]; [| |lia].
    + exists 0. split; [cbv; lia|]. split; [cbv; lia|]. intros w' Hw' _. cbv in Hw'. lia.
    + exists 1. split; [cbv; lia|]. split; [cbv; lia|]. intros w' Hw' X. cbv in Hw'. destruct w' as [|[|w']]; [cbv in X; lia|reflexivity|lia].
Qed.
Example xe_distributed : distributed ex_G 2 (nElFas (cEl exCfg)) xlMesh xlLvl xlCross xlLvl (fun _ => 1) xePk xePk xeCh.
Proof.
  split; [|split; [exact xe_packages|split; [exact xe_packages|split; [|split; [|split]]]]].
  - intros el Hel. destruct el as [|[|el]]; [| |lia]; cbv; lia.
  - intros i el fa Hi Hin. cbn in Hi. destruct i as [|[|[|[|i]]]]; cbn in Hin; try contradiction; try lia; (destruct Hin as [E|[]]); injection E as <- <-; (split; [lia|]); (split; [cbn; lia|]); (split; [reflexivity|]); eexists _, _, _; repeat split.
  - intros i Hi. cbn in Hi. destruct i as [|[|[|[|i]]]]; cbn; try lia; repeat constructor; intros [].
  - intros i j el fa Hi Hj Hin Hin'. cbn in Hi, Hj. destruct i as [|[|[|[|i]]]]; cbn in Hin; try contradiction; try lia; (destruct Hin as [E|[]]); injection E as <- <-; destruct j as [|[|[|[|j]]]]; cbn in Hin'; try contradiction; try lia; destruct Hin' as [E'|[]]; discriminate.
  - intros el fa ne v f Hel Hfa Em. destruct el as [|[|el]]; [| |lia]; three Hfa; cbn in Em; try discriminate Em; cbn.
    + exists 2. split; [lia|now left].
    + exists 3. split; [lia|now left].
Qed.
Example xe_setUp : exists K, setUp algZ exCfg xlU ex_G xlMesh xlLvl xlCross xlLvl (fun _ => 1) xePk xePk xeCh K xlFl xlM2 xlChars xlJ true.
Proof.
  destruct (kernelsOf algZ exCfg xlU) as [K|e] eqn:EK; [|exfalso; clear - EK; vm_compute in EK; discriminate]. exists K.
  split; [exact xl_good|]. split; [exact EK|]. split; [exact xl_junk|]. split; [exact xl_mesh2|]. split; [exact xl_chars|]. split; [reflexivity|]. split; [discriminate|]. split; [exact ex_wf|exact xe_distributed].
Qed.
(** the theorems apply: after 4 updates of element 0 and 2 updates of element 1, the arrays hold the scheme's states *)
Example xe_run : exists K j s recv net Q, (forall z, scheme algZ exCfg xlU xlMesh xlLvl xlDt xlHdt (fun _ => exQ z) (Q z)) /\
  runOps algZ exCfg xlU xlMesh xlDt xlHdt K xlFl xlM2 xlChars xlJ true (opsUpTo ex_G xlMesh xePk xePk xeCh (fun _ _ _ _ => []) ex_st ex_la j) (xlS0 xlSend, xlRecv, xlNet) = Ok (s, recv, net) /\
  holds algZ exCfg (nth 0 (lE s) []) (nth 0 (lA s) []) (fun z => Q z 0 4) /\ holds algZ exCfg (nth 1 (lE s) []) (nth 1 (lA s) []) (fun z => Q z 1 2).
Proof.
  destruct xe_setUp as (K & HSU). exists K.
  assert (Gr : graded exCfg xlU xlMesh xlLvl). { intros el fa ne v f Hel Hfa Em. two Hel; three Hfa; cbn in Em; try discriminate Em; injection Em as <- <- <-; cbv; lia. }
  set (Q := fun z => theQ algZ exCfg xlU xlMesh xlLvl xlDt xlHdt (fun _ => exQ z)).
  assert (HQ : forall z, scheme algZ exCfg xlU xlMesh xlLvl xlDt xlHdt (fun _ => exQ z) (Q z)) by (intros z; now apply theQ_scheme).
  destruct (C78_fair algZ exCfg xlU ex_G xlMesh xlLvl xlCross xlLvl (fun _ => 1) xePk xePk xeCh K xlFl xlM2 xlChars xlJ true xlDt xlHdt (fun _ _ _ _ => []) (fun z _ => exQ z) Q (xlS0 xlSend) xlRecv xlNet ex_st ex_la HSU (fun z _ => HQ z) xl_init2 ex_execution ex_fair) as (j & s & recv & net & E & H).
  exists j, s, recv, net, Q. split; [exact HQ|]. split; [exact E|]. split; [exact (H 0 ltac:(cbn; lia))|exact (H 1 ltac:(cbn; lia))].
Qed.

Print Assumptions C78_no_error.
Print Assumptions C78_interval.
Print Assumptions C78_fair.
Print Assumptions C78_simulation.
