(** C100: sub-grids of lines. *)
From Coq Require Import List Arith Bool ZArith QArith Qreals Reals Lra Lia FunctionalExtensionality.
From Verif Require Import ElSpec ElWave ScProj ScProjSpec ScProjV ScProjL ScProjInv Props_ScProj ScQuadSpec ScLine ScLineSpec ScLineV.
Import ListNotations.
Open Scope nat_scope.

(** The generation of the vertices ends, after no more than one iteration per sub-cell, and the vertices are equidistant. *)
Theorem C100_vertices : forall deg fuel, let n := 2 * deg + 1 in n < fuel -> exists l, svsL fuel deg = Some l /\ length l = n + 1 /\ forall i, i <= n -> exists q, nth_error l i = Some q /\ (q == frac i n)%Q.
Proof. cbv zeta. intros deg fuel F. destruct (svs_ok fuel deg F) as (l & A & B & C). exists l. split; [exact A|]. split; [rewrite B; unfold nScs; lia|exact C]. Qed.
Print Assumptions C100_vertices.
Example C100_vertices_ex : option_map (map Qred) (svsL 6 2) = Some [0; 1 # 5; 2 # 5; 3 # 5; 4 # 5; 1]%Q /\ svsL 5 2 = None. Proof. split; reflexivity. Qed.

(** Positions of sub-cells are a numbering of the lattice, the inner ones come first. *)
Theorem C100_numbering : forall deg, let n := 2 * deg + 1 in
  (forall c, c < n -> lineCell n c < n) /\ (forall p, p < n -> exists c, c < n /\ lineCell n c = p) /\ (forall c c', c < n -> c' < n -> lineCell n c = lineCell n c' -> c = c') /\
  (forall c, c < n -> (c < n - 2 <-> 0 < lineCell n c < n - 1)).
Proof.
  cbv zeta. intros deg. split; [apply lineCell_lt|]. split; [apply lineCell_onto|]. assert (C : forall c, c < 2 * deg + 1 -> (c < 2 * deg + 1 - 2 /\ lineCell (2 * deg + 1) c = S c) \/ (c = 2 * deg + 1 - 2 /\ lineCell (2 * deg + 1) c = 0) \/ (c = 2 * deg + 1 - 1 /\ lineCell (2 * deg + 1) c = 2 * deg + 1 - 1)).
  { intros c H. destruct deg as [|deg]; [right; right; assert (c = 0) by lia; subst; auto|]. exact (cases3 deg c H). }
  split; [intros c c' H H' E; destruct (C c H) as [(A & B)|[(A & B)|(A & B)]], (C c' H') as [(A' & B')|[(A' & B')|(A' & B')]]; lia|]. intros c H. destruct (C c H) as [(A & B)|[(A & B)|(A & B)]]; lia.
Qed.
Print Assumptions C100_numbering.
Example C100_numbering_ex : map (lineCell 5) [0; 1; 2; 3; 4] = [1; 2; 3; 0; 4]. Proof. reflexivity. Qed.

(** Vertices, adjacent sub-cells and types of sub-faces are those of the lattice. *)
Theorem C100_tables : forall deg c, let n := 2 * deg + 1 in c < n ->
  nth_error (fst (fst (scSvL deg)) ++ snd (fst (scSvL deg))) c = Some [Z.of_nat (lineCell n c); Z.of_nat (lineCell n c) + 1]%Z /\
  (exists l r, nth_error (rows3 (scSfScL deg)) c = Some [l; r] /\ onLeft n c l /\ onRight n c r) /\
  nth_error (rows2 (scTySfL deg)) c = Some [if lineCell n c =? 0 then 0 else 4; if S (lineCell n c) =? n then 1 else 5].
Proof.
  cbv zeta. intros deg c H. split; [|split; [exact (sfsc_ok deg c H)|exact (ty_ok deg c H)]]. assert (Q := sv_ok deg c H). destruct (scSvL deg) as [[i s] r]. exact Q.
Qed.
Print Assumptions C100_tables.
Example C100_tables_ex : scSfScL 2 = ([[3; 1]; [0; 2]; [1; 4]], [[5; 0]; [2; 6]], [[3; -1]; [4; -1]])%Z /\ scTySfL 2 = ([[4; 5]; [4; 5]; [4; 5]], [[0; 5]; [4; 1]]). Proof. split; reflexivity. Qed.

(** The two ghost sub-cells follow the others; a ghost has one neighbour, the sub-cell at its face of the element, and one vertex, the element's. It is listed first, except for the left ghost of degree zero. *)
Theorem C100_ghosts : forall deg fa, let n := 2 * deg + 1 in fa < 2 -> length (rows3 (scSfScL deg)) = n + 2 /\
  (exists c, c < n /\ lineCell n c = endCell n fa /\ nth_error (rows3 (scSfScL deg)) (n + fa) = Some [Z.of_nat c; -1]%Z) /\
  (exists row, nth_error (snd (scSvL deg)) fa = Some row /\ (row = [Z.of_nat (endVertex n fa); -1]%Z \/ (deg = 0 /\ fa = 0 /\ row = [-1; Z.of_nat (endVertex n fa)]%Z))).
Proof.
  cbv zeta. intros deg fa H. split; [exact (len_sfsc deg)|]. split; [destruct (ghost_ok deg fa H) as (c & A & B & C & _); exists c; auto|].
  destruct deg as [|deg]; [destruct fa as [|[|fa]]; [| |lia]; eexists; (split; [reflexivity|cbn; auto])|]. unfold scSvL. change (S deg =? 0) with false. cbn [snd]. destruct fa as [|[|fa]]; [| |lia]; eexists; (split; [reflexivity|]); left; reflexivity.
Qed.
Print Assumptions C100_ghosts.
Example C100_ghosts_ex : snd (scSvL 2) = [[0; -1]; [5; -1]]%Z. Proof. reflexivity. Qed.
(** The order of a ghost's vertices depends on the degree: for degree zero the left one starts with the undefined vertex, while the solver takes the first vertex of a ghost (src/sc/SubGrid.hpp 141-153, src/io/ReceiversSf.hpp 209-211). *)
Theorem C100_ghost_order_refuted : ~ (forall deg fa, fa < 2 -> nth_error (snd (scSvL deg)) fa = Some [Z.of_nat (endVertex (2 * deg + 1) fa); -1]%Z).
Proof. intros H. specialize (H 0 0 ltac:(lia)). discriminate H. Qed.
Print Assumptions C100_ghost_order_refuted.

(** The generated maps send [0, 1] to the sub-cells, with the sub-cells' lengths as determinants; those of the ghosts are those of the sub-cells at the faces. *)
Theorem C100_maps : forall deg fuel, let n := 2 * deg + 1 in n < fuel -> exists mi ms mr di ds dr, intScL fuel deg = Some ((mi, ms, mr), (di, ds, dr)) /\ length (mi ++ ms) = n /\ length (di ++ ds) = n /\
  (forall c x, c < n -> mapAt (mi ++ ms) c x = ((INR (lineCell n c) + x) / INR n)%R) /\ (forall c, c < n -> detAt (di ++ ds) c = (/ INR n)%R) /\
  (forall fa, fa < 2 -> exists m d, nth_error mr fa = Some [m] /\ nth_error dr fa = Some [d] /\ Q2R d = (/ INR n)%R /\ forall x, peval (map Q2R m) x = ((INR (endCell n fa) + x) / INR n)%R).
Proof.
  cbv zeta. intros deg fuel F. destruct (int_ok fuel deg F) as (mi & ms & mr & di & ds & dr & E & A & B). exists mi, ms, mr, di, ds, dr. split; [exact E|].
  assert (L : length (mi ++ ms) = 2 * deg + 1 /\ length (di ++ ds) = 2 * deg + 1).
  { unfold intScL in E. destruct (svsL fuel deg) as [svs|]; [|discriminate]. cbn [bindO] in E. assert (LN : length (fst (fst (scSvL deg)) ++ snd (fst (scSvL deg))) = 2 * deg + 1) by (destruct deg as [|deg]; [reflexivity|]; unfold scSvL; change (S deg =? 0) with false; cbn [fst snd]; rewrite app_length, map_length, zrange_len; unfold nScs; cbn [length]; lia).
    destruct (scSvL deg) as [[i s] r0]. destruct (scSfScL deg) as [[i0 s0] r]. cbn [fst snd] in LN. unfold genIntSc in E.
    assert (ML : forall (l : list (list Z)) l', mapO (mapOf svs) l = Some l' -> length l' = length l) by (induction l as [|a l IH]; intros l' Q; cbn [mapO] in Q; [injection Q as <-; reflexivity|]; destruct (mapOf svs a); [|discriminate]; destruct (mapO (mapOf svs) l) eqn:Q'; [|discriminate]; injection Q as <-; cbn [length]; f_equal; apply IH; reflexivity).
    destruct (mapO (mapOf svs) i) as [mi'|] eqn:Ei; [|discriminate]. cbn [bindO] in E. destruct (mapO (mapOf svs) s) as [ms'|] eqn:Es; [|discriminate]. cbn [bindO] in E. match type of E with bindO ?o _ = _ => destruct o; [|discriminate] end. cbn [bindO] in E. match type of E with bindO ?o _ = _ => destruct o; [|discriminate] end. cbn [bindO] in E. injection E as <- <- _ <- <- _.
    rewrite !app_length, !map_length, (ML _ _ Ei), (ML _ _ Es). rewrite app_length in LN. lia. }
  split; [apply L|]. split; [apply L|]. split; [|split].
  - intros c x Hc. destruct (A c Hc) as (m & d & E1 & _ & P & _). unfold mapAt. rewrite (nth_error_nth _ _ _ E1). apply P.
  - intros c Hc. destruct (A c Hc) as (m & d & _ & E1 & _ & P). unfold detAt. rewrite (nth_error_nth _ _ _ E1). apply P.
  - intros fa Hf. destruct (B fa Hf) as (c & m & d & Hc & P & E1 & E2 & E3 & E4). exists m, d. split; [exact E3|]. split; [exact E4|]. destruct (A c Hc) as (m' & d' & E1' & E2' & Q1 & Q2). rewrite E1 in E1'. rewrite E2 in E2'. injection E1' as <-. injection E2' as <-. split; [exact Q2|]. intros x. rewrite Q1. unfold lineMap. rewrite P. reflexivity.
Qed.
Print Assumptions C100_maps.
Example C100_maps_ex : option_map (fun t => let '((mi, ms, mr), (di, ds, dr)) := t in (map (map Qred) (mi ++ ms), map Qred (di ++ ds))) (intScL 4 1) = Some ([[1 # 3; 1 # 3]; [0; 1 # 3]; [2 # 3; 1 # 3]], [1 # 3; 1 # 3; 1 # 3])%Q. Proof. reflexivity. Qed.

(** Lines of every degree: with the generated tables, the projection to the sub-cells and back is defined, exact, conservative and optimal. *)
Open Scope R_scope.
Theorem C100_project : forall N fuel nb intg basis inv, let n := (2 * N + 1)%nat in (n < fuel)%nat -> linear intg -> exact N intg -> inverts inv -> complete inv -> (forall i, (i < nb)%nat -> isPoly N (basis i)) ->
  (forall c, (forall x, expand nb basis c x = 0) -> forall i, (i < nb)%nat -> c i = 0) -> (exists c, forall x, expand nb basis c x = 1) ->
  exists mi ms mr di ds dr G, intScL fuel N = Some ((mi, ms, mr), (di, ds, dr)) /\ gather R intg nb n basis (mapAt (mi ++ ms)) (detAt (di ++ ds)) inv = Some G /\
  (forall c i, (i < nb)%nat -> times n (times nb c (scatter R intg basis (mapAt (mi ++ ms)) (detAt (di ++ ds)))) G i = c i) /\
  (forall c s, (s < n)%nat -> times nb c (scatter R intg basis (mapAt (mi ++ ms)) (detAt (di ++ ds))) s = intg (fun x => expand nb basis c ((INR (lineCell n s) + x) / INR n))) /\
  (forall u, intg (expand nb basis (times n u G)) = sum n (fun s => / INR n * u s)) /\
  (forall u c, intg (expand nb basis c) = sum n (fun s => / INR n * u s) ->
     let dist c := sum n (fun s => (mean intg (lineMap n s) (expand nb basis c) - u s) * (mean intg (lineMap n s) (expand nb basis c) - u s)) in
     dist (times n u G) <= dist c /\ (dist c = dist (times n u G) -> forall i, (i < nb)%nat -> c i = times n u G i)).
Proof.
  intros N fuel nb intg basis inv. cbv zeta. intros F LI EX IV CO PO IND ONE. destruct (C100_maps N fuel F) as (mi & ms & mr & di & ds & dr & E & _ & _ & M & D & _). set (n := (2 * N + 1)%nat) in *.
  assert (NZ : INR n <> 0) by (apply not_0_INR; lia). destruct (C99_line N nb intg basis inv LI EX CO PO IND ONE) as (T & _ & (G0 & EG)). fold n in T, EG.
  assert (V : intg (fun _ => 1) = 1) by (rewrite (EX (fun x => x)); [ring| |intros; apply derivable_pt_lim_id]; exists [0; 1]; split; [cbn; lia|]; intros; unfold peval; cbn; ring).
  assert (V0 : intg (fun _ => 1) <> 0) by lra. assert (D0 : forall s, (s < n)%nat -> detAt (di ++ ds) s <> 0) by (intros; rewrite D by auto; apply Rinv_neq_0_compat; auto).
  set (maps := mapAt (mi ++ ms)) in *. set (dets := detAt (di ++ ds)) in *.
  assert (SI : forall f s, (s < n)%nat -> intg (subst R f (maps s)) = intg (subst R f (lineMap n s))) by (intros f s Hs; apply LI; intros p; unfold subst; rewrite M by auto; reflexivity).
  assert (EL : aL R intg nb n basis maps dets = aL R intg nb n basis (lineMap n) (fun _ => / INR n)).
  { apply functional_extensionality. intros ro. apply functional_extensionality. intros co. unfold aL, lsPart, lagrange. assert (LG : forall rc, sum n (fun sc => - (intg (subst R (basis rc) (maps sc)) * dets sc)) = sum n (fun sc => - (intg (subst R (basis rc) (lineMap n sc)) * / INR n))) by (intros; apply sum_ext; intros; rewrite SI, D by auto; reflexivity).
    destruct (ro <? nb)%nat, (co <? nb)%nat; auto. apply sum_ext. intros. rewrite !SI, D by auto. reflexivity. }
  assert (GD : exists G, gather R intg nb n basis maps dets inv = Some G) by (unfold gather in EG |- *; rewrite EL; destruct (inv (S nb) _); [eexists; reflexivity|discriminate]). destruct GD as (G & GD).
  assert (T' : forall i, (i < nb)%nat -> tiles intg n maps dets (basis i)).
  { intros i Hi. unfold tiles. rewrite (T i Hi). apply sum_ext. intros s Hs. rewrite D by auto. f_equal. symmetry. apply (SI (basis i) s Hs). }
  assert (ME : forall c s, (s < n)%nat -> mean intg (maps s) (expand nb basis c) = mean intg (lineMap n s) (expand nb basis c)) by (intros c s Hs; unfold mean; f_equal; apply (SI (expand nb basis c) s Hs)).
  assert (VS : forall u, sum n (fun s => intg (fun _ => 1) * dets s * u s) = sum n (fun s => / INR n * u s)) by (intros; apply sum_ext; intros; rewrite V, D by auto; ring).
  exists mi, ms, mr, di, ds, dr, G. split; [exact E|]. split; [exact GD|]. split; [|split; [|split]].
  - intros c i Hi. exact (proj2 (C99_inverse R intg nb n basis maps dets inv G c i LI V0 D0 IV GD Hi)).
  - intros c s Hs. refine (eq_trans (C99_scatter R intg nb n basis maps dets c s LI V0 D0 Hs) _). rewrite ME by auto. unfold mean. rewrite V. unfold Rdiv at 1. rewrite Rinv_1, Rmult_1_r. reflexivity.
  - intros u. rewrite (C99_conservation R intg nb n basis maps dets inv G u LI V0 D0 IV T' GD). apply VS.
  - intros u c EC. assert (Q := C99_best R intg nb n basis maps dets inv G u c LI V0 D0 IV T' GD). rewrite VS in Q. specialize (Q EC). cbv beta zeta in Q. cbv beta.
    assert (DD : forall c, sum n (fun s => (mean intg (maps s) (expand nb basis c) - u s) * (mean intg (maps s) (expand nb basis c) - u s)) = sum n (fun s => (mean intg (lineMap n s) (expand nb basis c) - u s) * (mean intg (lineMap n s) (expand nb basis c) - u s))) by (intros c0; apply sum_ext; intros; rewrite ME by auto; reflexivity).
    rewrite !DD in Q. exact Q.
Qed.
Print Assumptions C100_project.
Example C100_project_ex : exists G, (3 < 4)%nat /\ linear simpson /\ exact 1 simpson /\ inverts gauss /\ complete gauss /\ gather R simpson 2 3 basis1 (lineMap 3) (fun _ => / INR 3) gauss = Some G.
Proof.
  destruct C99_line_ex as (A & B & C & D & E & _). destruct (C99_line 1 2 simpson basis1 gauss A B (proj2 gauss_ok) C D E) as (_ & _ & G & Q). exists G. split; [lia|]. split; [exact A|]. split; [exact B|]. split; [apply gauss_ok|]. split; [apply gauss_ok|exact Q].
Qed.
