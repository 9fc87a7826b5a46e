(** C105: links from limited elements to their duplicates. *)
From Verif Require Import Util LiDup LiDupSpec LiDupV.
From Coq Require Import List Arith Bool Lia Sorted.

Lemma li_ok none nFa nEnts iFirst iSize own liLp lpEl daMe meDa o : 0 < nFa -> iSize <= own -> iFirst + own <= nEnts -> iFirst + own <= none ->
  mapped (iFirst + iSize) (iFirst + own) liLp lpEl daMe meDa -> rowsOf nEnts nFa o ->
  (exists o', liDoLiDu none nFa nEnts iFirst iSize own liLp lpEl daMe meDa o = Ok o' /\ length o' = nEnts /\
    forall l2 row, nth_error o' l2 = Some row -> exists ds, row = ds ++ repeat none (nFa - length ds) /\ length ds <= nFa /\ dupsOf (iFirst + iSize) (iFirst + own) liLp lpEl daMe meDa l2 ds) \/
  (liDoLiDu none nFa nEnts iFirst iSize own liLp lpEl daMe meDa o = Er Echeck /\ ~ ~ crowded (iFirst + iSize) (iFirst + own) liLp lpEl daMe meDa nFa).
Proof.
  intros Hn Hs He Hx M Ro. destruct (clear_ok none nFa nEnts o Ro) as (o1 & E & L & Z). unfold liDoLiDu. rewrite E. cbn [bind].
  assert (Eq : iFirst + own = iFirst + iSize + (own - iSize)) by lia. rewrite Eq in *.
  destruct (links_ok none nFa (iFirst + iSize) (own - iSize) nEnts liLp lpEl daMe meDa Hn ltac:(lia) ltac:(lia) M o1 L Z) as [(o' & E' & L' & R)|(E' & C)]; [left|right; auto].
  exists o'. split; [exact E'|]. split; [exact L'|]. intros l2 row Hr. destruct (R l2 row Hr) as (ds & -> & Hd & Sd & I). exists ds. split; [reflexivity|]. split; [exact Hd|]. split; [exact Sd|].
  intros l1. rewrite I. split; [tauto|]. intros D. split; [|exact D]. destruct D as (D & _). lia.
Qed.

(** the links of every limited element are its duplicates in ascending order; the remaining entries are invalid *)
Theorem C105_links none nFa nEnts iFirst iSize own liLp lpEl daMe meDa o o' : 0 < nFa -> iSize <= own -> iFirst + own <= nEnts -> iFirst + own <= none ->
  mapped (iFirst + iSize) (iFirst + own) liLp lpEl daMe meDa -> rowsOf nEnts nFa o ->
  liDoLiDu none nFa nEnts iFirst iSize own liLp lpEl daMe meDa o = Ok o' ->
  rowsOf nEnts nFa o' /\
  forall l2, l2 < nEnts -> exists ds, dupsOf (iFirst + iSize) (iFirst + own) liLp lpEl daMe meDa l2 ds /\ length ds <= nFa /\ nth_error o' l2 = Some (ds ++ repeat none (nFa - length ds)).
Proof.
  intros Hn Hs He Hx M Ro E. destruct (li_ok none nFa nEnts iFirst iSize own liLp lpEl daMe meDa o Hn Hs He Hx M Ro) as [(o2 & E2 & L & R)|(E2 & _)]; [|congruence].
  rewrite E in E2. injection E2 as <-. split; [split; [exact L|]|].
  - intros r Hr. apply In_nth_error in Hr. destruct Hr as (i & Hi). destruct (R i r Hi) as (ds & -> & Hd & _). rewrite app_length, repeat_length. lia.
  - intros l2 H2. destruct (nth_error o' l2) as [row|] eqn:Er; [|apply nth_error_None in Er; lia]. destruct (R l2 row Er) as (ds & -> & Hd & D). exists ds. auto.
Qed.
Print Assumptions C105_links.

(** the program stops if and only if an element has more duplicates than faces *)
Theorem C105_stops none nFa nEnts iFirst iSize own liLp lpEl daMe meDa o : 0 < nFa -> iSize <= own -> iFirst + own <= nEnts -> iFirst + own <= none ->
  mapped (iFirst + iSize) (iFirst + own) liLp lpEl daMe meDa -> rowsOf nEnts nFa o ->
  ((exists o', liDoLiDu none nFa nEnts iFirst iSize own liLp lpEl daMe meDa o = Ok o') <-> ~ crowded (iFirst + iSize) (iFirst + own) liLp lpEl daMe meDa nFa) /\
  ((forall o', liDoLiDu none nFa nEnts iFirst iSize own liLp lpEl daMe meDa o <> Ok o') -> liDoLiDu none nFa nEnts iFirst iSize own liLp lpEl daMe meDa o = Er Echeck).
Proof.
  intros Hn Hs He Hx M Ro. destruct (li_ok none nFa nEnts iFirst iSize own liLp lpEl daMe meDa o Hn Hs He Hx M Ro) as [(o2 & E & L & R)|(E & C)].
  - split; [|intros H; destruct (H o2 E)]. split; [|eauto]. intros _ (l2 & xs & N & Hl & D). destruct xs as [|x xs]; [cbn in Hl; lia|].
    assert (H2 : l2 < nEnts) by (destruct (D x (or_introl eq_refl)) as (_ & H & _); lia). destruct (nth_error o2 l2) as [row|] eqn:Er; [|apply nth_error_None in Er; lia]. destruct (R l2 row Er) as (ds & _ & Hd & _ & I).
    assert (length (x :: xs) <= length ds) by (apply NoDup_incl_length; [exact N|]; intros y Hy; apply I, D, Hy). lia.
  - split; [|auto]. split; [intros (o' & Eo); congruence|]. intros NC. destruct (C NC).
Qed.
Print Assumptions C105_stops.

(** if different limited elements have different dense elements, a duplicate is linked from one limited element only *)
Theorem C105_once none nFa nEnts iFirst iSize own liLp lpEl daMe meDa o o' l1 l2 l3 : 0 < nFa -> iSize <= own -> iFirst + own <= nEnts -> iFirst + own <= none ->
  mapped (iFirst + iSize) (iFirst + own) liLp lpEl daMe meDa -> rowsOf nEnts nFa o ->
  (forall a b e, elemOf liLp lpEl a e -> elemOf liLp lpEl b e -> a = b) ->
  liDoLiDu none nFa nEnts iFirst iSize own liLp lpEl daMe meDa o = Ok o' ->
  dupOf (iFirst + iSize) (iFirst + own) liLp lpEl daMe meDa l1 l2 -> l3 < nEnts ->
  ((exists row, nth_error o' l3 = Some row /\ In l1 row) <-> l3 = l2).
Proof.
  intros Hn Hs He Hx M Ro J E D H3. destruct (C105_links _ _ _ _ _ _ _ _ _ _ _ _ Hn Hs He Hx M Ro E) as (_ & R). destruct (R l3 H3) as (ds & (_ & I) & _ & Er).
  assert (Nn : l1 <> none) by (destruct D as (D & _); lia). split.
  - intros (row & Er' & Hi). rewrite Er in Er'. injection Er' as <-. apply in_app_iff in Hi. destruct Hi as [Hi|Hi]; [|apply repeat_spec in Hi; congruence]. apply I in Hi.
    destruct Hi as (_ & _ & e & d & A1 & (m & A2 & A3) & _ & A4). destruct D as (_ & _ & e' & d' & B1 & (m' & B2 & B3) & _ & B4). assert (e = e') by (eapply elem_fun; eauto). subst e'. assert (d = d') by congruence. subst d'. eapply J; eauto.
  - intros ->. eexists. split; [exact Er|]. apply in_app_iff. left. now apply I.
Qed.
Print Assumptions C105_once.

(** non-vacuity: three limited elements to be sent, the latter two are duplicates of the first one *)
Example C105_ex_mapped : mapped 1 4 [0; 1; 2; 3] [0; 2; 1; 3] [0; 1; 1; 1] [0; 2].
Proof.
  intros l H. assert (l = 1 \/ l = 2 \/ l = 3) as [->|[->| ->]] by lia; [exists 2, 2|exists 1, 2|exists 3, 2]; (split; [eexists; split; reflexivity|]); exists 1; split; reflexivity.
Qed.
Example C105_ex_inj : forall a b e, elemOf [0; 1; 2; 3] [0; 2; 1; 3] a e -> elemOf [0; 1; 2; 3] [0; 2; 1; 3] b e -> a = b.
Proof.
  intros a b e (p & H1 & H2) (q & H3 & H4).
  destruct a as [|[|[|[|a]]]]; cbn in H1; try (destruct a; discriminate); injection H1 as <-; cbn in H2; injection H2 as <-;
  destruct b as [|[|[|[|b]]]]; cbn in H3; try (destruct b; discriminate); injection H3 as <-; cbn in H4; congruence.
Qed.
Example C105_ex_dup : dupOf 1 4 [0; 1; 2; 3] [0; 2; 1; 3] [0; 1; 1; 1] [0; 2] 3 1.
Proof. split; [lia|]. split; [lia|]. exists 3, 2. split; [eexists; split; reflexivity|]. split; [exists 1; split; reflexivity|]. split; [lia|]. eexists; split; reflexivity. Qed.
Example C105_ex_links : liDoLiDu 9 3 4 0 1 4 [0; 1; 2; 3] [0; 2; 1; 3] [0; 1; 1; 1] [0; 2] (repeat (repeat 0 3) 4) = Ok [[9; 9; 9]; [2; 3; 9]; [9; 9; 9]; [9; 9; 9]].
Proof. reflexivity. Qed.
Example C105_ex_stops : liDoLiDu 9 1 4 0 1 4 [0; 1; 2; 3] [0; 2; 1; 3] [0; 1; 1; 1] [0; 2] (repeat (repeat 0 1) 4) = Er Echeck.
Proof. reflexivity. Qed.
