(** The loops of the initial values and of the error norms. *)
From Coq Require Import List ZArith Reals Lra Lia Bool.
From Verif Require Import Util BasisSpec BasisInt BasisOrth BasisSpan Basis Props_Basis EdgePreM EdgePreP Qpts QptsSpec QptsP Props_Qpts InitP.
From Verif Require Mapping Comm CommProofs.
Import ListNotations.
Local Open Scope R_scope.

Lemma rd_nth {A} (l : list A) i d : (i < length l)%nat -> rd l i = Ok (nth i l d). Proof. intros H. unfold rd. now rewrite (nth_error_nth' l d H). Qed.
Lemma vx_elCrds el nV elVe ve e d i : (d < 3)%nat -> (i < nV)%nat -> vx (elCrds el nV elVe ve e) d i = if (d <? dim el)%nat then ve (elVe e i) d else 0.
Proof.
  intros Hd Hi. unfold vx, elCrds. rewrite (nth_indep _ _ (map (fun j => if (0 <? dim el)%nat then ve (elVe e j) 0%nat else 0) (seq 0 nV))) by (rewrite map_length, seq_length; exact Hd).
  rewrite (map_nth (fun di => map (fun j => if (di <? dim el)%nat then ve (elVe e j) di else 0) (seq 0 nV)) (seq 0 3) 0%nat d), seq_nth by exact Hd. cbn [plus].
  rewrite (nth_indep _ _ (if (d <? dim el)%nat then ve (elVe e 0%nat) d else 0)) by (rewrite map_length, seq_length; exact Hi). rewrite (map_nth (fun j => if (d <? dim el)%nat then ve (elVe e j) d else 0) (seq 0 nV) 0%nat i), seq_nth by exact Hi. reflexivity.
Qed.

Section I.
Variables (gl : nat -> nat -> R * R) (tol : R) (el : refEl) (o nQ nC first size nV : nat) (ex : list expr) (elVe : nat -> nat -> nat) (ve : nat -> nat -> R).
Hypotheses (Ho : (1 <= o)%nat) (HG : forall k, (1 <= k <= o + 1)%nat -> isGauss gl k) (HT : 0 < tol < 1).
Hypotheses (HE : length ex = nC) (HX : forall x c q, In x ex -> length q = nQ -> length (x c q) = nQ).
Let N := nMds el o.
Let b := theBasis gl el o.
Let ref := refPts gl el (o + 1).
Definition vs (e : nat) : list (list R) := elCrds el nV elVe ve e.
Hypothesis HW : forall e, (first <= e < first + size)%nat -> wellShaped tol el (vs e).
(** value of quantity [qt] of expression [cr] at a point, with zero as value of the quantities before *)
Definition valE (cr qt : nat) (x y z : R) : R := nth qt (nth cr ex (fun _ q => q) (firstn (dim el) [x; y; z]) (repeat 0 nQ)) 0.
Definition coef (e qt md cr : nat) : R := proj gl el o (onRef el (vs e) (valE cr qt)) md.
Lemma pts_ok e : (first <= e < first + size)%nat -> getQpts gl tol el (o + 1) (elCrds el nV elVe ve e) = Ok (map (phys el (vs e)) ref).
Proof. intros He. apply qpts_ok; [lia|apply HG; lia|lra|now apply HW]. Qed.
Lemma nQps_ok e : (length (map (phys el (vs e)) ref) =? nQps el (o + 1))%nat = true. Proof. rewrite map_length. unfold ref. rewrite refPts_len. apply Nat.eqb_refl. Qed.
Lemma ex_rd cr : (cr < nC)%nat -> rd ex cr = Ok (nth cr ex (fun _ q => q)). Proof. intros. apply rd_nth. now rewrite HE. Qed.
Lemma ex_len cr c q : (cr < nC)%nat -> length q = nQ -> length (nth cr ex (fun _ q => q) c q) = nQ. Proof. intros H. apply HX. apply nth_In. now rewrite HE. Qed.
Lemma dg_ok d : exists d', initDg gl tol nQ nC b first size nV ex elVe ve d = Ok d'
  /\ forall e qt md cr, d' e qt md cr = if ((first <=? e) && (e <? first + size) && (qt <? nQ) && (md <? N) && (cr <? nC))%nat then Some (coef e qt md cr) else d e qt md cr.
Proof.
  unfold initDg. cbn [b theBasis bEl bO]. fold b.
  set (cnd := fun (n e qt md cr : nat) => ((first <=? e) && (e <? n) && (qt <? nQ) && (md <? N) && (cr <? nC))%nat).
  destruct (for_ok (fun n d' => forall e qt md cr, d' e qt md cr = if cnd n e qt md cr then Some (coef e qt md cr) else d e qt md cr) first (first + size) (fun e d =>
    qs <- getQpts gl tol el (o + 1) (elCrds el nV elVe ve e) ;;
    _ <- check (length qs =? nQps el (o + 1))%nat ;;
    q0 <- mapM (fun q => mapM (fun cr => x <- rd ex cr ;; Ok (x (crds el q) (repeat 0 nQ))) (seq 0 nC)) qs ;;
    for_ 0 nC (fun cr d => for_ 0 nQ (fun qt d =>
      vals <- mapM (fun r => l <- rd r cr ;; rd l qt) q0 ;;
      ms <- qpts2modal b vals (o + 1) ;;
      for_ 0 (nMds el o) (fun md d => v <- rd ms md ;; Ok (setDof d e qt md cr v)) d) d) d) d) as (d' & E & I).
  - lia.
  - intros e qt md cr. unfold cnd. destruct (Nat.leb_spec first e), (Nat.ltb_spec e first); cbn [andb]; try reflexivity; lia.
  - intros e dk He Ik. rewrite pts_ok by exact He. cbn [bind]. rewrite nQps_ok. cbn [check bind].
    set (row := fun q : qpt => map (fun cr => nth cr ex (fun _ q => q) (crds el q) (repeat 0 nQ)) (seq 0 nC)).
    rewrite (mapM_Ok _ row); [|intros q _; apply mapM_Ok; intros cr Hc; apply in_seq in Hc; rewrite ex_rd by lia; reflexivity]. cbn [bind].
    destruct (for_ok (fun c d' => forall e' qt md cr, d' e' qt md cr = if ((e' =? e) && (qt <? nQ) && (md <? N) && (cr <? c))%nat then Some (coef e qt md cr) else dk e' qt md cr) 0 nC (fun cr d => for_ 0 nQ (fun qt d =>
      vals <- mapM (fun r => l <- rd r cr ;; rd l qt) (map row (map (phys el (vs e)) ref)) ;;
      ms <- qpts2modal b vals (o + 1) ;;
      for_ 0 (nMds el o) (fun md d => v <- rd ms md ;; Ok (setDof d e qt md cr v)) d) d) dk) as (d1 & E1 & I1).
    + lia.
    + intros. rewrite andb_false_r. reflexivity.
    + intros cr dc Hc Ic. cbn beta.
      destruct (for_ok (fun q d' => forall e' qt md c', d' e' qt md c' = if ((e' =? e) && (qt <? q) && (md <? N) && (c' =? cr))%nat then Some (coef e qt md cr) else dc e' qt md c') 0 nQ (fun qt d =>
        vals <- mapM (fun r => l <- rd r cr ;; rd l qt) (map row (map (phys el (vs e)) ref)) ;;
        ms <- qpts2modal b vals (o + 1) ;;
        for_ 0 (nMds el o) (fun md d => v <- rd ms md ;; Ok (setDof d e qt md cr v)) d) dc) as (d2 & E2 & I2).
      * lia.
      * intros. rewrite andb_false_r. reflexivity.
      * intros qt dq Hq Iq. rewrite (mapM_Ok _ (fun r => nth qt (nth cr r []) 0)).
        -- cbn [bind]. rewrite !map_map. replace (map _ ref) with (map (fun q => let '(x, y, z, _) := q in onRef el (vs e) (valE cr qt) x y z) ref).
           ++ unfold b, ref. rewrite modal_ok by assumption. cbn [bind]. fold N.
              destruct (for_ok (fun k d' => forall e' q' md c', d' e' q' md c' = if ((e' =? e) && (q' =? qt) && (md <? k) && (c' =? cr))%nat then Some (coef e qt md cr) else dq e' q' md c') 0 N
                (fun md d => v <- rd (map (fun md => Some (proj gl el o (onRef el (vs e) (valE cr qt)) md)) (seq 0 (nMds el o))) md ;; Ok (setDof d e qt md cr v)) dq) as (d3 & E3 & I3).
              ** lia.
              ** intros. rewrite andb_false_r. reflexivity.
              ** intros k dd Hk Ik'. rewrite rd_seq by (exact (proj2 Hk)). cbn [bind]. eexists. split; [reflexivity|]. intros e' q' md c'. unfold setDof. rewrite Ik'.
                 destruct (Nat.eqb_spec e' e), (Nat.eqb_spec q' qt), (Nat.eqb_spec md k), (Nat.eqb_spec c' cr), (Nat.ltb_spec md k), (Nat.ltb_spec md (S k)); cbn [andb]; subst; try reflexivity; lia.
              ** exists d3. split; [exact E3|]. intros e' q' md c'. rewrite I3, Iq.
                 destruct (Nat.eqb_spec e' e), (Nat.eqb_spec q' qt), (Nat.eqb_spec c' cr), (Nat.ltb_spec q' qt), (Nat.ltb_spec q' (S qt)), (Nat.ltb_spec md N); cbn [andb]; subst; try reflexivity; lia.
           ++ apply map_ext. intros (((x & y) & z) & w). unfold row, onRef, valE, phys, crds.
              rewrite (nth_indep (map _ (seq 0 nC)) [] (nth 0 ex (fun _ q => q) (firstn (dim el) [affMap el (vs e) x y z 0; affMap el (vs e) x y z 1; affMap el (vs e) x y z 2]) (repeat 0 nQ))) by (rewrite map_length, seq_length; lia).
              rewrite (map_nth (fun cr => nth cr ex (fun _ q => q) (firstn (dim el) [affMap el (vs e) x y z 0; affMap el (vs e) x y z 1; affMap el (vs e) x y z 2]) (repeat 0 nQ)) (seq 0 nC) 0%nat cr), seq_nth by lia. reflexivity.
        -- intros r Hr. apply in_map_iff in Hr. destruct Hr as (q & <- & _). unfold row at 1 2. rewrite (rd_nth _ cr []) by (rewrite map_length, seq_length; lia). cbn [bind]. apply rd_nth.
           rewrite (nth_indep _ _ (nth 0 ex (fun _ q => q) (crds el q) (repeat 0 nQ))) by (rewrite map_length, seq_length; lia). rewrite (map_nth (fun cr => nth cr ex (fun _ q => q) (crds el q) (repeat 0 nQ)) (seq 0 nC) 0%nat cr), seq_nth by lia. cbn [plus].
           rewrite ex_len; [lia|lia|apply repeat_length].
      * exists d2. split; [exact E2|]. intros e' qt md c'. rewrite I2, Ic.
        destruct (Nat.eqb_spec e' e), (Nat.eqb_spec c' cr), (Nat.ltb_spec c' cr), (Nat.ltb_spec c' (S cr)), (Nat.ltb_spec qt nQ), (Nat.ltb_spec md N); cbn [andb]; subst; try reflexivity; lia.
    + exists d1. split; [exact E1|]. intros e' qt md cr. rewrite I1, Ik. unfold cnd.
      destruct (Nat.eqb_spec e' e), (Nat.leb_spec first e'), (Nat.ltb_spec e' e), (Nat.ltb_spec e' (S e)), (Nat.ltb_spec cr nC), (Nat.ltb_spec qt nQ), (Nat.ltb_spec md N); cbn [andb]; subst; try reflexivity; lia.
  - exists d'. split; [exact E|]. intros. rewrite I. reflexivity.
Qed.

(** *** Error norms *)
Variables (big : R) (d : dofs) (u : nat -> nat -> nat -> nat -> R).
(** values of the quantities the evaluations meet, and what the expressions then return *)
Variables (P : nat -> list R -> Prop) (fin : nat -> list R -> list R).
Hypothesis HP0 : forall cr, (cr < nC)%nat -> P cr (repeat big nQ).
Hypothesis HP : forall cr c q, (cr < nC)%nat -> P cr q -> nth cr ex (fun _ q => q) c q = fin cr c /\ P cr (fin cr c).
Hypothesis HPl : forall cr q, P cr q -> length q = nQ.
Definition valF (cr qt : nat) (x y z : R) : R := nth qt (fin cr (firstn (dim el) [x; y; z])) 0.
Hypothesis HU : forall e qt md cr, (first <= e < first + size)%nat -> (qt < nQ)%nat -> (md < N)%nat -> (cr < nC)%nat -> d e qt md cr = Some (u e qt md cr).
(** difference at a point of the reference element *)
Definition dif (e qt cr : nat) (q : qpt) : R := let '(x, y, z, _) := q in Rabs (recon el o (fun md => u e qt md cr) x y z - onRef el (vs e) (valF cr qt) x y z).
Definition wgt (e : nat) (q : qpt) : R := snd q * volJ el (vs e).
Definition pt (e qt cr : nat) (s : R * R * R) (q : qpt) : R * R * R :=
  let '(s1, s2, s3) := s in (s1 + dif e qt cr q * wgt e q, s2 + dif e qt cr q * dif e qt cr q * wgt e q, Rmax s3 (dif e qt cr q)).
Definition elm (qt cr : nat) (s : R * R * R) (e : nat) : R * R * R := fold_left (pt e qt cr) ref s.
Definition getE (st : errSt) (q c : nat) : number * number * number := (eL1 st q c, eL2 st q c, eInf st q c).
Definition lft (s : R * R * R) : number * number * number := let '(a, b, c) := s in (Some a, Some b, Some c).
Definition okQ (l : list (list R)) : Prop := length l = nC /\ forall cr, (cr < nC)%nat -> P cr (nth cr l []).
Definition vec (q : qpt) (cr : nat) : list R := fin cr (crds el q).
Lemma fin_P cr c : (cr < nC)%nat -> P cr (fin cr c). Proof. intros H. exact (proj2 (HP cr c _ H (HP0 cr H))). Qed.
Lemma vec_len q cr : (cr < nC)%nat -> length (vec q cr) = nQ. Proof. intros H. apply (HPl cr), fin_P, H. Qed.
Lemma okQ_vec q : okQ (map (vec q) (seq 0 nC)).
Proof. split; [now rewrite map_length, seq_length|]. intros c Hc. rewrite (nth_indep _ _ (vec q 0%nat)) by (rewrite map_length, seq_length; exact Hc). rewrite map_nth, seq_nth by exact Hc. now apply fin_P. Qed.
Lemma eval_ok q l : okQ l -> for_ 0 nC (fun cr qE => x <- rd ex cr ;; v <- rd qE cr ;; wr qE cr (x (crds el q) v)) l = Ok (map (vec q) (seq 0 nC)).
Proof.
  intros (L & Q).
  destruct (for_ok (fun k l' => l' = map (vec q) (seq 0 k) ++ skipn k l) 0 nC (fun cr qE => x <- rd ex cr ;; v <- rd qE cr ;; wr qE cr (x (crds el q) v)) l) as (l' & E & I).
  - lia.
  - reflexivity.
  - intros k l' Hk ->. rewrite ex_rd by lia. cbn [bind]. destruct (nth_error l k) as [v|] eqn:Ev; [|apply nth_error_None in Ev; lia].
    assert (V : P k v) by (rewrite <- (nth_error_nth l k [] Ev); apply Q; lia).
    assert (S : skipn k l = v :: skipn (Datatypes.S k) l) by (clear - Ev; revert l Ev; induction k as [|k IH]; intros [|a l] E; cbn in *; try discriminate; [now injection E as ->|now apply IH]).
    rewrite S. rewrite (rd_some _ _ v); [|rewrite nth_error_app2; rewrite map_length, seq_length; [now rewrite Nat.sub_diag|lia]]. cbn [bind].
    rewrite wr_ok by (rewrite app_length, map_length, seq_length; cbn; lia). eexists. split; [reflexivity|]. rewrite upd_app_at by now rewrite map_length, seq_length. rewrite seq_S, map_app, <- app_assoc. cbn [map app plus]. do 2 f_equal.
    apply (HP k _ v); [lia|exact V].
  - rewrite E. f_equal. rewrite I, <- L, skipn_all, app_nil_r. reflexivity.
Qed.
Lemma refl_ok qs l : okQ l -> exists l', okQ l' /\ for_ 0 (length qs) (fun i s =>
      q <- rd qs i ;;
      qE <- for_ 0 nC (fun cr qE => x <- rd ex cr ;; v <- rd qE cr ;; wr qE cr (x (crds el q) v)) (fst s) ;;
      Ok (qE, snd s ++ [qE])) (l, []) = Ok (l', map (fun q => map (vec q) (seq 0 nC)) qs).
Proof.
  intros Q. destruct (for_ok (fun k s => okQ (fst s) /\ snd s = map (fun q => map (vec q) (seq 0 nC)) (firstn k qs)) 0 (length qs) (fun i s =>
      q <- rd qs i ;;
      qE <- for_ 0 nC (fun cr qE => x <- rd ex cr ;; v <- rd qE cr ;; wr qE cr (x (crds el q) v)) (fst s) ;;
      Ok (qE, snd s ++ [qE])) (l, [])) as ((l' & r) & E & I & J).
  - lia.
  - split; [exact Q|reflexivity].
  - intros k (l1 & r1) Hk (I1 & J1). cbn [fst snd] in *. destruct (nth_error qs k) as [q|] eqn:Eq; [|apply nth_error_None in Eq; lia]. rewrite (rd_some _ _ _ Eq). cbn [bind]. rewrite eval_ok by exact I1. cbn [bind].
    eexists. split; [reflexivity|]. cbn [fst snd]. split; [apply okQ_vec|]. rewrite (firstn_S_snoc _ _ _ Eq), map_app, J1. reflexivity.
  - cbn [fst snd] in *. exists l'. split; [exact I|]. rewrite E, J, firstn_all. reflexivity.
Qed.
Lemma norms_ok : exists st, err gl tol nQ nC big b first size nV ex elVe ve d = Ok st
  /\ forall qt cr, (qt < nQ)%nat -> (cr < nC)%nat -> getE st qt cr = lft (fold_left (elm qt cr) (seq first size) (0, 0, 0)).
Proof.
  unfold err. cbn [b theBasis bEl bO]. fold b. rewrite ref_qpts; [|lia|apply HG; lia|exact HT]. cbn [bind]. rewrite refPts_len, Nat.eqb_refl. cbn [check bind].
  match goal with |- exists st, for_ _ _ ?body ?s0 = _ /\ _ => destruct (for_ok (fun n st => okQ (eQ st) /\ forall qt cr, (qt < nQ)%nat -> (cr < nC)%nat -> getE st qt cr = lft (fold_left (elm qt cr) (seq first (n - first)) (0, 0, 0))) first (first + size) body s0) as (st & E & _ & I) end.
  - lia.
  - rewrite Nat.sub_diag. split; [|intros; reflexivity]. cbn [eQ]. split; [apply repeat_length|]. intros cr Hc. rewrite (nth_indep _ _ (repeat big nQ)) by (rewrite repeat_length; exact Hc). rewrite nth_repeat. now apply HP0.
  - intros e st He (Iq & Ie). rewrite pts_ok by exact He. cbn [bind]. rewrite nQps_ok. cbn [check bind].
    destruct (refl_ok (map (phys el (vs e)) ref) (eQ st) Iq) as (l' & Q' & Er). rewrite Er. cbn [bind]. clear Er.
    set (A := fun q c => fold_left (elm q c) (seq first (e - first)) (0, 0, 0)) in *.
    match goal with |- exists s', for_ 0 nC ?body ?s0 = _ /\ _ => destruct (for_ok (fun c st' => eQ st' = l' /\ forall q c', (q < nQ)%nat -> (c' < nC)%nat -> getE st' q c' = lft (if (c' <? c)%nat then elm q c' (A q c') e else A q c')) 0 nC body s0) as (s1 & E1 & Q1 & I1) end.
    + lia.
    + split; [reflexivity|]. intros q c' Hq Hc. exact (Ie q c' Hq Hc).
    + intros cr st1 Hc (Q1 & I1).
      match goal with |- exists s', for_ 0 nQ ?body ?s0 = _ /\ _ => destruct (for_ok (fun k st' => eQ st' = l' /\ forall q c', (q < nQ)%nat -> (c' < nC)%nat -> getE st' q c' = lft (if ((c' <? cr) || (c' =? cr) && (q <? k))%nat then elm q c' (A q c') e else A q c')) 0 nQ body s0) as (s2 & E2 & Q2 & I2) end.
      * lia.
      * split; [exact Q1|]. intros q c' Hq' Hc'. rewrite andb_false_r, orb_false_r. now apply I1.
      * intros qt st2 Hq (Q2 & I2).
        match goal with |- exists s', for_ 0 (length ?l) ?body ?s0 = _ /\ _ => destruct (for_ok (fun k st' => eQ st' = l' /\ forall q c', (q < nQ)%nat -> (c' < nC)%nat ->
          getE st' q c' = lft (if ((c' <? cr) || (c' =? cr) && (q <? qt))%nat then elm q c' (A q c') e else if ((c' =? cr) && (q =? qt))%nat then fold_left (pt e qt cr) (firstn k ref) (A qt cr) else A q c')) 0 (length l) body s0) as (s3 & E3 & Q3 & I3) end.
        -- lia.
        -- split; [exact Q2|]. intros q c' Hq' Hc'. rewrite I2 by assumption. cbn [firstn fold_left]. destruct (Nat.eqb_spec c' cr), (Nat.eqb_spec q qt); cbn [andb]; subst; reflexivity.
        -- intros i st3 Hi (Q3 & I3). rewrite map_length in Hi. destruct (nth_error ref i) as [[[[x y] z] w]|] eqn:Ei; [|apply nth_error_None in Ei; lia].
           rewrite (rd_map _ _ _ _ Ei). cbn [bind]. rewrite (map_ext_in _ (fun md => Some (u e qt md cr))) by (intros md Hm; apply in_seq in Hm; apply HU; lia || (unfold N; lia)).
           unfold b. rewrite (ptVal_ok gl el o Ho i x y z w (fun md => u e qt md cr)) by exact Ei. cbn [bind]. rewrite map_map. rewrite (rd_map _ _ _ _ Ei). cbn [bind]. rewrite rd_seq by lia. cbn [bind].
           rewrite (rd_nth _ qt 0) by (rewrite vec_len; lia). cbn [bind]. eexists. split; [reflexivity|]. cbn [eQ]. split; [exact Q3|]. intros q c' Hq' Hc'. specialize (I3 q c' Hq' Hc'). unfold getE in I3 |- *. cbn [eL1 eL2 eInf]. unfold setN.
           destruct (Nat.eqb_spec q qt) as [Nq|Nq], (Nat.eqb_spec c' cr) as [Nc|Nc]; cbn [andb] in *; try exact I3. subst q c'.
           rewrite Nat.ltb_irrefl, Nat.ltb_irrefl in *. cbn [orb andb] in *. rewrite (firstn_S_snoc _ _ _ Ei), fold_left_app. cbn [fold_left]. destruct (fold_left (pt e qt cr) (firstn i ref) (A qt cr)) as ((a1 & a2) & a3). cbn [lft] in I3. injection I3 as -> -> ->.
           cbn [pt lft nadd nmul nlift nabs nmax option_map]. unfold wgt, dif, qW, phys. cbn [snd].
           change (nth qt (vec _ cr) 0) with (onRef el (vs e) (valF cr qt) x y z). reflexivity.
        -- exists s3. split; [exact E3|]. split; [exact Q3|]. intros q c' Hq' Hc'. rewrite I3 by assumption. rewrite map_length, firstn_all.
           destruct (Nat.ltb_spec c' cr), (Nat.eqb_spec c' cr), (Nat.ltb_spec q qt), (Nat.ltb_spec q (S qt)), (Nat.eqb_spec q qt); cbn [andb orb]; subst; try reflexivity; lia.
      * exists s2. split; [exact E2|]. split; [exact Q2|]. intros q c' Hq' Hc'. rewrite I2 by assumption.
        destruct (Nat.ltb_spec c' cr), (Nat.eqb_spec c' cr), (Nat.ltb_spec c' (S cr)), (Nat.ltb_spec q nQ); cbn [andb orb]; subst; try reflexivity; lia.
    + exists s1. split; [exact E1|]. split; [rewrite Q1; exact Q'|]. intros q c' Hq' Hc'. rewrite I1 by assumption. destruct (Nat.ltb_spec c' nC); [|lia]. replace (S e - first)%nat with (S (e - first)) by lia. rewrite seq_S, fold_left_app. cbn [fold_left]. replace (first + (e - first))%nat with e by lia. reflexivity.
  - exists st. split; [exact E|]. intros qt cr Hq Hc. rewrite I by assumption. do 3 f_equal. lia.
Qed.
(** the accumulated values as sums and maximum *)
Definition maxl (l : list R) (c : R) : R := fold_left Rmax l c.
Lemma maxl_spec l : forall c, c <= maxl l c /\ (forall a, In a l -> a <= maxl l c) /\ (maxl l c = c \/ In (maxl l c) l).
Proof.
  induction l as [|a l IH]; intros c; cbn [maxl fold_left]; [split; [lra|split; [intros _ []|now left]]|]. change (fold_left Rmax l (Rmax c a)) with (maxl l (Rmax c a)). destruct (IH (Rmax c a)) as (L & B & A). pose proof (Rmax_l c a). pose proof (Rmax_r c a). split; [lra|]. split.
  - intros x [<-|H1]; [lra|now apply B].
  - destruct A as [A|A]; [|right; now right]. unfold Rmax in A at 2. destruct (Rle_dec c a); [right; left; now rewrite A|left; exact A].
Qed.
Lemma pt_fold e qt cr l : forall a b c, fold_left (pt e qt cr) l (a, b, c) = (a + lsum l (fun q => dif e qt cr q * wgt e q), b + lsum l (fun q => dif e qt cr q * dif e qt cr q * wgt e q), maxl (map (dif e qt cr) l) c).
Proof. induction l as [|q l IH]; intros a b' c; [cbn; now rewrite !Rplus_0_r|]. cbn [fold_left]. cbn [pt]. rewrite IH. unfold lsum, maxl. cbn [map fold_right fold_left]. now rewrite !Rplus_assoc. Qed.
Lemma elm_fold qt cr l : forall a b c, fold_left (elm qt cr) l (a, b, c) = (a + lsum l (fun e => lsum ref (fun q => dif e qt cr q * wgt e q)), b + lsum l (fun e => lsum ref (fun q => dif e qt cr q * dif e qt cr q * wgt e q)), maxl (flat_map (fun e => map (dif e qt cr) ref) l) c).
Proof.
  induction l as [|e l IH]; intros a b' c; [cbn; now rewrite !Rplus_0_r|]. cbn [fold_left]. unfold elm at 2. rewrite pt_fold, IH. unfold lsum at 5 6. unfold lsum at 1 2 3 4. unfold maxl. cbn [map fold_right flat_map]. rewrite fold_left_app. now rewrite !Rplus_assoc.
Qed.
Lemma lsum_shift (F : nat -> R) n : forall k, lsum (seq k n) F = rsum n (fun i => F (k + i)%nat).
Proof. induction n as [|n IH]; intros k; [reflexivity|]. rewrite seq_S, lsum_app, IH. cbn. ring. Qed.
Lemma norms_sum : exists st, err gl tol nQ nC big b first size nV ex elVe ve d = Ok st
  /\ forall qt cr, (qt < nQ)%nat -> (cr < nC)%nat ->
    let df := fun e x y z => recon el o (fun md => u e qt md cr) x y z - onRef el (vs e) (valF cr qt) x y z in
    eL1 st qt cr = Some (rsum size (fun k => volJ el (vs (first + k)) * rule ref (fun x y z => Rabs (df (first + k)%nat x y z))))
    /\ eL2 st qt cr = Some (rsum size (fun k => volJ el (vs (first + k)) * rule ref (fun x y z => df (first + k)%nat x y z * df (first + k)%nat x y z)))
    /\ exists M, eInf st qt cr = Some M /\ 0 <= M /\ (forall e x y z w, (first <= e < first + size)%nat -> In (x, y, z, w) ref -> Rabs (df e x y z) <= M)
      /\ (M = 0 \/ exists e x y z w, (first <= e < first + size)%nat /\ In (x, y, z, w) ref /\ M = Rabs (df e x y z)).
Proof.
  destruct norms_ok as (st & E & H). exists st. split; [exact E|]. intros qt cr Hq Hc df. specialize (H qt cr Hq Hc). rewrite elm_fold in H. unfold getE, lft in H. injection H as E1 E2 E3. rewrite E1, E2, E3. split; [|split].
  - rewrite Rplus_0_l, lsum_shift. f_equal. apply rsum_ext. intros i _. rewrite rule_lsum, <- lsum_mul. apply lsum_ext. intros (((x & y) & z) & w) _. unfold dif, wgt, df. cbn [snd]. ring.
  - rewrite Rplus_0_l, lsum_shift. f_equal. apply rsum_ext. intros i _. rewrite rule_lsum, <- lsum_mul. apply lsum_ext. intros (((x & y) & z) & w) _. unfold dif, wgt, df. cbn [snd]. rewrite <- Rabs_mult, (Rabs_pos_eq (_ * _)) by apply Rle_0_sqr. ring.
  - eexists. split; [reflexivity|]. set (l := flat_map _ _). destruct (maxl_spec l 0) as (L & B & A). split; [exact L|]. split.
    + intros e x y z w He I. apply B. apply in_flat_map. exists e. split; [apply in_seq; lia|]. apply in_map_iff. exists (x, y, z, w). split; [reflexivity|exact I].
    + destruct A as [A|A]; [now left|right]. apply in_flat_map in A. destruct A as (e & I1 & I2). apply in_seq in I1. apply in_map_iff in I2. destruct I2 as ((((x & y) & z) & w) & I3 & I4). exists e, x, y, z, w. split; [lia|]. split; [exact I4|]. now rewrite <- I3.
Qed.
End I.
