(** Property C88: the files of the wave field show the element averages of the current solution, under unambiguous names. *)
From Verif Require Import Util Snap SnapSpec SnapP.
From Coq Require Import String Ascii.
Open Scope string_scope.
Open Scope list_scope.

(** The printed elements are exactly the ones which have all requested sparse types, in ascending order. The k-th write of a run gives a file
    with these elements as cells, their vertices, and one variable per fused simulation and quantity which holds mode 0 of the DOFs at the time
    of this write. The writer never accesses its buffers out of bounds. *)
Theorem C88_content (F D : Type) (fC fD : D -> F) (nan : F) (nul nQ nC nV : nat) veCrds elVe fuel ty path rank nVes nEls spType all sp w reqs :
  wf_new fuel ty path rank nVes nEls spType all sp = Ok (w, reqs) ->
  exists ep, exactly (fun el => el < nEls /\ (sp = all \/ hasTypes sp (spType el))) ep /\
  forall dofss : list (nat -> nat -> nat -> nat -> D),
  exists calls, wf_writes fC fD nan nul nQ nC nV veCrds elVe dofss w = Ok calls /\ List.length calls = List.length dofss /\
    (ep = [] -> forall k c, nth_error calls k = Some c -> c = None) /\
    (ep <> [] -> forall k dofs, nth_error dofss k = Some dofs -> exists c, nth_error calls k = Some (Some c) /\
       cBin c = (ty =? "vtk_binary") /\ cCells c = List.length ep /\ List.length (cVars c) = nC * nQ /\
       (forall ve di, ve < nVes -> di < 3 -> nth_error (cPts c) (ve * 3 + di) = Some (fC (veCrds ve di))) /\
       forall j el, nth_error ep j = Some el ->
         (forall ve, ve < nV -> nth_error (cConn c) (j * nV + ve) = Some (elVe el ve)) /\
         (forall run q, run < nC -> q < nQ -> readVar c ("crun_" ++ tos run ++ "_var_" ++ tos q)%string j = Some (fD (dofs el q 0 run)))).
Proof.
  unfold wf_new. intros H. exists (elPrint nEls spType all sp). split; [apply elPrint_exact|]. intros dofss.
  set (ep := elPrint nEls spType all sp) in *. destruct (deadLoop ep); [|discriminate]. cbn [bind] in H.
  destruct (match typeOf ty with wNone => _ | _ => _ end) as [[out rq]|] eqn:T; [|discriminate]. cbn [bind] in H.
  apply (f_equal (fun r => match r with Ok (w, _) => w | Er _ => w end)) in H. subst w.
  set (w := mkWf _ _ _ _ _ _ _).
  destruct ep as [|e0 el] eqn:E.
  - exists (map (fun _ => None) dofss). split; [now apply wf_writes_none|]. split; [apply map_length|]. split; [|easy].
    intros _ k c N. apply nth_error_In, in_map_iff in N as (_ & <- & _). reflexivity.
  - destruct (wf_writes_ok fC fD nan nul nQ nC nV veCrds elVe w) with (dofss := dofss) as (cs & H1 & H2 & H3); [exact I|cbn; lia|].
    exists cs. split; [exact H1|]. split; [exact H2|]. split; [easy|]. intros _ k d N. destruct (H3 k d N) as (c & C1 & C2 & C3 & C4).
    exists c. destruct C4 as (D1 & D2 & D3 & D4 & D5). split; [exact C1|]. split.
    { rewrite C3. unfold w. cbn [wfType]. unfold typeOf. destruct (String.eqb_spec ty "vtk_ascii") as [->|]; [reflexivity|]. now destruct (ty =? "vtk_binary"). }
    auto.
Qed.

(** Every write of every rank has its own file: the names differ if the ranks or the numbers of the writes differ. The file is in the last
    directory which the constructor requested, and all directories above it have been requested before it. *)
Theorem C88_files (F D : Type) (fC fD : D -> F) (nan : F) (nul nQ nC nV : nat) veCrds elVe absolute cs file fuel ty rank nVes nEls spType all sp :
  ty = "vtk_ascii" \/ ty = "vtk_binary" -> Forall component cs -> component file -> absolute = true \/ cs <> [] -> List.length cs + 2 < fuel ->
  elPrint nEls spType all sp <> [] ->
  exists w, wf_new fuel ty (root absolute ++ path cs ++ file)%string rank nVes nEls spType all sp = Ok (w, parents absolute (cs ++ [tos rank])) /\
  forall dofss : list (nat -> nat -> nat -> nat -> D),
  exists calls, wf_writes fC fD nan nul nQ nC nV veCrds elVe dofss w = Ok calls /\ List.length calls = List.length dofss /\
    forall k, k < List.length dofss -> exists c, nth_error calls k = Some (Some c) /\
      cName c = (root absolute ++ path (cs ++ [tos rank]) ++ file ++ "_" ++ tos rank ++ "_" ++ tos k ++ ".vtk")%string.
Proof.
  intros HT FA CF NE L EP. destruct (path_slash absolute cs NE) as (p & HP).
  assert (SP : splitPathLast (root absolute ++ path cs ++ file)%string = (p, file)).
  { rewrite <- (str_app_assoc (root absolute)), HP, str_app_assoc. now apply split_last. }
  assert (PD : ((p ++ "/" ++ tos rank) ++ "/" = root absolute ++ path (cs ++ [tos rank]))%string).
  { rewrite path_app, <- (str_app_assoc (root absolute)), HP. cbn [path]. now rewrite !str_app_assoc. }
  assert (CD : createDir fuel (p ++ "/" ++ tos rank)%string = Ok (parents absolute (cs ++ [tos rank]))).
  { apply createDir_ok; [now destruct cs| |exact PD|rewrite app_length; cbn; lia]. apply Forall_app. split; [exact FA|]. constructor; [apply tos_component|constructor]. }
  unfold wf_new. destruct (dead_ok (elPrint nEls spType all sp)) as (n & ->); [apply elPrint_exact|]. cbn [bind].
  set (X := match typeOf ty with wNone => _ | _ => _ end).
  assert (EX : X = Ok ((p ++ "/" ++ tos rank ++ "/" ++ file)%string, parents absolute (cs ++ [tos rank]))).
  { assert (TY : typeOf ty = wAscii \/ typeOf ty = wBinary) by (destruct HT as [->| ->]; [left|right]; reflexivity).
    unfold X. rewrite SP, CD. cbn [bind].
    replace (0 <? List.length (elPrint nEls spType all sp))%nat with true by (destruct (elPrint nEls spType all sp); [congruence|reflexivity]).
    now destruct TY as [-> | ->]. }
  rewrite EX. cbn [bind]. eexists. split; [reflexivity|]. intros dofss.
  set (w := mkWf _ _ _ _ _ _ _).
  destruct (wf_writes_ok fC fD nan nul nQ nC nV veCrds elVe w) with (dofss := dofss) as (calls & H1 & H2 & H3).
  { exact I. } { cbn [w wfPrint]. destruct (elPrint nEls spType all sp); [congruence|cbn; lia]. }
  exists calls. split; [exact H1|]. split; [exact H2|]. intros k Hk. destruct (nth_error dofss k) as [d|] eqn:Ed; [|apply nth_error_None in Ed; lia].
  destruct (H3 k d Ed) as (c & C1 & C2 & _). exists c. split; [exact C1|]. rewrite C2. cbn [w wfOut wfRank wfStep Nat.add].
  rewrite <- (str_app_assoc (root absolute)), <- PD, !str_app_assoc. reflexivity.
Qed.

(** A plain name is used for the directory as well: "wf" gives the files "wf/0/wf_0_0.vtk", .. *)
Theorem C88_plain_name (F D : Type) (fC fD : D -> F) (nan : F) (nul nQ nC nV : nat) veCrds elVe file fuel ty rank nVes nEls spType all sp :
  ty = "vtk_ascii" \/ ty = "vtk_binary" -> component file -> 3 < fuel -> elPrint nEls spType all sp <> [] ->
  exists w, wf_new fuel ty file rank nVes nEls spType all sp = Ok (w, parents false [file; tos rank]) /\
  forall dofss : list (nat -> nat -> nat -> nat -> D),
  exists calls, wf_writes fC fD nan nul nQ nC nV veCrds elVe dofss w = Ok calls /\ List.length calls = List.length dofss /\
    forall k, k < List.length dofss -> exists c, nth_error calls k = Some (Some c) /\
      cName c = (path [file; tos rank] ++ file ++ "_" ++ tos rank ++ "_" ++ tos k ++ ".vtk")%string.
Proof.
  intros HT CF L EP.
  assert (SP : splitPathLast file = (file, file)) by (unfold splitPathLast; rewrite (cutLast_none file (proj2 CF)); reflexivity).
  assert (CD : createDir fuel (file ++ "/" ++ tos rank)%string = Ok (parents false [file; tos rank])).
  { apply createDir_ok; [discriminate| | |cbn; lia]. { constructor; [exact CF|]. constructor; [apply tos_component|constructor]. }
    cbn [root path]. rewrite !str_app_assoc. reflexivity. }
  unfold wf_new. destruct (dead_ok (elPrint nEls spType all sp)) as (n & ->); [apply elPrint_exact|]. cbn [bind].
  set (X := match typeOf ty with wNone => _ | _ => _ end).
  assert (EX : X = Ok ((file ++ "/" ++ tos rank ++ "/" ++ file)%string, parents false [file; tos rank])).
  { assert (TY : typeOf ty = wAscii \/ typeOf ty = wBinary) by (destruct HT as [->| ->]; [left|right]; reflexivity).
    unfold X. rewrite SP, CD. cbn [bind].
    replace (0 <? List.length (elPrint nEls spType all sp))%nat with true by (destruct (elPrint nEls spType all sp); [congruence|reflexivity]).
    now destruct TY as [-> | ->]. }
  rewrite EX. cbn [bind]. eexists. split; [reflexivity|]. intros dofss.
  set (w := mkWf _ _ _ _ _ _ _).
  destruct (wf_writes_ok fC fD nan nul nQ nC nV veCrds elVe w) with (dofss := dofss) as (calls & H1 & H2 & H3).
  { exact I. } { cbn [w wfPrint]. destruct (elPrint nEls spType all sp); [congruence|cbn; lia]. }
  exists calls. split; [exact H1|]. split; [exact H2|]. intros k Hk. destruct (nth_error dofss k) as [d|] eqn:Ed; [|apply nth_error_None in Ed; lia].
  destruct (H3 k d Ed) as (c & C1 & C2 & _). exists c. split; [exact C1|]. rewrite C2. cbn [w wfOut wfRank wfStep Nat.add path].
  rewrite !str_app_assoc. reflexivity.
Qed.
Example plain_ex : exists w, wf_new 10 "vtk_ascii" "wf" 3 4 3 (fun el => N.of_nat (el + 4)) 255 5 = Ok (w, ["wf/"; "wf/3/"]) /\ @wfOut nat w = "wf/3/wf".
Proof. eexists. split; vm_compute; reflexivity. Qed.

Theorem C88_names absolute cs file rank rank' k k' : 
  (root absolute ++ path (cs ++ [tos rank]) ++ file ++ "_" ++ tos rank ++ "_" ++ tos k ++ ".vtk" =
   root absolute ++ path (cs ++ [tos rank']) ++ file ++ "_" ++ tos rank' ++ "_" ++ tos k' ++ ".vtk")%string -> rank = rank' /\ k = k'.
Proof.
  rewrite !path_app, !str_app_assoc. intros H. do 2 apply app_cancel in H. cbn [path append] in H. rewrite !str_app_assoc in H. cbn [append] in H.
  apply (sep_inj digit) in H as [H1 H2]; [|apply sl_digit|apply tos_digits|apply tos_digits]. apply tos_inj in H1. subst rank'. split; [reflexivity|].
  now apply (file_inj file rank).
Qed.

(** A directory and all directories above it are requested, the upper ones first. *)
Theorem C88_directories absolute cs fuel dir : cs <> [] -> Forall component cs -> (dir ++ "/")%string = (root absolute ++ path cs)%string -> S (List.length cs) < fuel ->
  createDir fuel dir = Ok (parents absolute cs).
Proof. apply createDir_ok. Qed.

(** The code violates this if a component is empty: "out//run" has the directories "out/" and "out//run/", only the first is requested. *)
Theorem C88_double_slash_refuted : createDir 10 "out//run" = Ok ["out/"].
Proof. reflexivity. Qed.
(** A backslash, which may be part of a name, is taken for a separator: the directory "a\b/" of the file is not requested. *)
Theorem C88_backslash_refuted : exists w, wf_new 10 "vtk_ascii" "a\b/wf" 0 0 1 (fun _ => 0%N) 5 5 = Ok (w, ["a/"; "a/b/"; "a/b/0/"]) /\ @wfOut nat w = "a\b/0/wf".
Proof. eexists. split; [vm_compute; reflexivity|reflexivity]. Qed.
(** The type of the output is not respected: any other type than the two known ones writes files as well, which are in the working directory and without
    the user's name. *)
Theorem C88_no_type_refuted : exists w c, wf_new 10 "none" "out/wf" 0 0 1 (fun _ => 0%N) 5 5 = Ok (w, []) /\
  wf_writes (fun x : nat => x) (fun x => x) 0 0 1 1 3 (fun _ _ => 0) (fun _ _ => 0) [fun _ _ _ _ => 7] w = Ok [Some c] /\ cName c = "_0_0.vtk" /\ cVals c = [7].
Proof. eexists. eexists. split; [vm_compute; reflexivity|]. split; [vm_compute; reflexivity|]. split; reflexivity. Qed.

(** two of three elements are printed, two simulations, two quantities *)
Definition ex_dofs (t : nat) (el q md cr : nat) : nat := 1000 * t + 100 * el + 10 * q + cr.
Example content_ex : exists w calls, wf_new 10 "vtk_binary" "out/wf" 3 4 3 (fun el => N.of_nat (el + 4)) 255 5 = Ok (w, ["out/"; "out/3/"]) /\
  @wfPrint nat w = [1] /\ wf_writes (fun x : nat => x) (fun x => x) 0 0 2 2 3 (fun ve di => ve + di) (fun el ve => el + ve) [ex_dofs 1; ex_dofs 2] w = Ok calls /\
  map (fun c => match c with Some c => (cName c, readVar c "crun_1_var_0" 0) | None => ("", None) end) calls = [("out/3/wf_3_0.vtk", Some 1101); ("out/3/wf_3_1.vtk", Some 2101)].
Proof. eexists. eexists. split; [vm_compute; reflexivity|]. split; [vm_compute; reflexivity|]. split; vm_compute; reflexivity. Qed.
Example path_ex : exists cs, cs <> [] /\ Forall component cs /\ ("/tmp/out" ++ "/" = root true ++ path cs)%string /\ createDir 10 "/tmp/out" = Ok ["/"; "/tmp/"; "/tmp/out/"].
Proof.
  exists ["tmp"; "out"]. split; [discriminate|]. split; [|split; reflexivity].
  repeat constructor; try discriminate; intros; cbn in H; intuition (subst; discriminate).
Qed.

Print Assumptions C88_content.
Print Assumptions C88_files.
Print Assumptions C88_plain_name.
Print Assumptions C88_names.
Print Assumptions C88_directories.
Print Assumptions C88_double_slash_refuted.
Print Assumptions C88_backslash_refuted.
Print Assumptions C88_no_type_refuted.
