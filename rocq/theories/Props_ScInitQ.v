(** C104: the generated sub-grids of quads in the solver. *)
From Coq Require Import List Arith Bool ZArith QArith Lia.
From Verif Require Import Util Comm SubGrid SubGridW ScQuadSpec ScQuadV ScQuadW Props_ScQuad ScInit ScInitSpec ScInitV Props_ScInit.
Import ListNotations.
Open Scope nat_scope.

(** the pre-processing's -1 *)
Definition zid (v : option nat) : Z := match v with Some v => Z.of_nat v | None => (-1)%Z end.

Lemma ty_small n k : forall v, In v (tyRow n k) -> v < 12.
Proof. intros v H. destruct k as [x y|fa sf]; unfold tyRow in H; [|destruct H]. apply in_map_iff in H. destruct H as (j & <- & Hj). apply in_seq in Hj. destruct j as [|[|[|[|j]]]]; [| | | |lia]; cbn [look]; (match goal with |- context [if ?b then _ else _] => destruct b end); cbn [typeOf]; lia. Qed.
Lemma ves_small n k v : okKind n k -> In (Some v) (ves n k) -> v < (n + 1) * (n + 1).
Proof.
  intros K H. destruct k as [x y|fa sf]; cbn [okKind] in K; [|destruct fa as [|[|[|[|fa]]]]; try lia]; cbn [ves recvVe] in H; repeat (destruct H as [H|H]; [try discriminate H; injection H as <-; unfold id; nia|]); destruct H.
Qed.
Lemma row_small n k v : 0 < n -> okKind n k -> In (Some v) (row n k) -> v < n * n + 4 * n.
Proof.
  intros N K H. unfold row in H. apply in_map_iff in H. destruct H as (j & E & Hj). apply in_seq in Hj. destruct (edge n k j) eqn:Q; [|discriminate]. injection E as <-. apply num_lt; auto. destruct (opp_ok n k j K) as (A & _); [lia|congruence|exact A].
Qed.

(** The solver's tables of a quad of any degree are those of the lattice of squares: vertices, adjacent sub-cells, types of the sub-faces, sub-cells at the faces and the order of an adjacent element's sub-faces. *)
Theorem C104_quads : forall deg o, let n := 2 * deg + 1 in n * n + 4 * n < 256 * 256 -> shaped 2 2 4 4 n (n * n) o ->
  exists num g c, numbering n num /\
    built (map (map zid) (rows3 (ScQuad.scSv deg))) (g_scsv g) /\ built (map (map zid) (rows3 (ScQuad.scSfSc deg))) (g_scsfsc g) /\ built (map (map Z.of_nat) (rows2 (ScQuad.scTySf deg))) (g_sctysf g) /\ built [map Z.of_nat (ScQuad.scDgAd deg)] (g_scdgad g) /\
    connect 2 2 4 4 n (n * n) g o = Ok c /\
    (forall x y, x < n -> y < n ->
       (forall i, i < 4 -> exists v p, entry (scSv c) (num x y) i (Z.of_nat v) /\ nth_error (ScQuad.svs deg) v = Some p /\ peq p (corner n x y i)) /\
       forall j, j < 4 -> entry (scSfSc c) (num x y) j (Z.of_nat (numOf n num (look n x y j))) /\ entry (scTySf c) (num x y) j (Z.of_nat (typeOf j (look n x y j))) /\
         forall fa sf, look n x y j = Beyond fa sf -> entry (faSfSc c) fa sf (Z.of_nat (num x y))) /\
    forall sf, sf < n -> entry (scDgAd c) 0 sf (Z.of_nat (n - 1 - sf)).
Proof.
  intros deg o n B O. assert (NE : n = ScQuad.nSfs deg) by reflexivity. assert (N : 0 < n) by (unfold n; lia). destruct (C98_lattice deg) as (nu & NU & _ & SQ & GH & LS & LT). fold n in NU, SQ, GH, LS, LT.
  assert (RV : rows3 (ScQuad.scSv deg) = map (ves n) (order n)) by (rewrite ves_rows; reflexivity).
  assert (RS : rows3 (ScQuad.scSfSc deg) = map (row n) (order n)) by (rewrite rows_ok; unfold rows3, order; rewrite !map_app; reflexivity).
  assert (RT : rows2 (ScQuad.scTySf deg) = map (tyRow n) (inner_ n ++ send_ n)) by (rewrite types_ok; unfold rows2; rewrite map_app; reflexivity).
  set (sv := map (map zid) (rows3 (ScQuad.scSv deg))). set (sc := map (map zid) (rows3 (ScQuad.scSfSc deg))). set (ty := map (map Z.of_nat) (rows2 (ScQuad.scTySf deg))). set (ad := [map Z.of_nat (ScQuad.scDgAd deg)]).
  assert (LO : length (order n) = n * n + 4 * n) by (apply len_order; auto).
  assert (T1 : table2 (n * n + 4 * n) 4 sv).
  { apply map_table. rewrite RV. split; [now rewrite map_length|]. intros r Hr. apply in_map_iff in Hr. destruct Hr as ([x y|[|[|[|fa]]] sf] & <- & _); reflexivity. }
  assert (T2 : table2 (n * n + 4 * n) 4 sc). { apply map_table. rewrite RS. split; [now rewrite map_length|]. intros r Hr. apply in_map_iff in Hr. destruct Hr as (k & <- & _). unfold row. now rewrite map_length, seq_length. }
  assert (T3 : table2 (n * n) 4 ty). { apply map_table. rewrite RT. split; [rewrite map_length; apply len_squares; auto|]. intros r Hr. apply in_map_iff in Hr. destruct Hr as (k & <- & Hk). apply in_app_or in Hk. destruct Hk as [Hk|Hk]; [apply in_inner in Hk|apply in_send in Hk]; destruct Hk as (x & y & -> & _); reflexivity. }
  assert (LA : length (ScQuad.scDgAd deg) = n) by (unfold ScQuad.scDgAd; rewrite rev_length, len_range; lia).
  assert (T4 : table2 (orients 2 2) n ad) by (split; [reflexivity|intros r [<-|[]]; now rewrite map_length]).
  assert (SB : (Z.of_nat (n * n + 4 * n) < 65536)%Z) by lia.
  assert (IZ : forall (t : list (list (option nat))) b, (Z.of_nat b < 65536)%Z -> (forall r v, In r t -> In (Some v) r -> v < b) -> idsOk (map (map zid) t)).
  { intros t b Hb H r v Hr Hv. apply in_map_iff in Hr. destruct Hr as (r' & <- & Hr). apply in_map_iff in Hv. destruct Hv as ([w|] & <- & Hw); unfold idOk, zid; [|lia]. specialize (H r' w Hr Hw). lia. }
  assert (I1 : idsOk sv). { apply (IZ _ ((n + 1) * (n + 1))); [nia|]. intros r v Hr Hv. rewrite RV in Hr. apply in_map_iff in Hr. destruct Hr as (k & <- & Hk). apply in_order in Hk. eapply ves_small; eauto. }
  assert (I2 : idsOk sc). { apply (IZ _ (n * n + 4 * n)); [exact SB|]. intros r v Hr Hv. rewrite RS in Hr. apply in_map_iff in Hr. destruct Hr as (k & <- & Hk). apply in_order in Hk. eapply row_small; eauto. }
  assert (I3 : idsOk ty). { intros r v Hr Hv. apply in_map_iff in Hr. destruct Hr as (r' & <- & Hr). apply in_map_iff in Hv. destruct Hv as (w & <- & Hw). rewrite RT in Hr. apply in_map_iff in Hr. destruct Hr as (k & <- & _). apply ty_small in Hw. unfold idOk. lia. }
  assert (I4 : idsOk ad). { intros r v [<-|[]] Hv. apply in_map_iff in Hv. destruct Hv as (w & <- & Hw). unfold ScQuad.scDgAd in Hw. apply in_rev in Hw. rewrite in_range in Hw. rewrite <- NE in Hw. unfold idOk. nia. }
  assert (ON : forall fa sf, fa < 4 -> sf < n -> exists x y, x < n /\ y < n /\ look n x y fa = Beyond fa sf).
  { intros fa sf Hf Hs. destruct fa as [|[|[|[|fa]]]]; [exists sf, 0|exists (n - 1), sf|exists (n - 1 - sf), (n - 1)|exists 0, (n - 1 - sf)|lia]; cbn [look]; (split; [lia|]); (split; [lia|]).
    - reflexivity.
    - destruct (Nat.eqb_spec (n - 1 + 1) n); [reflexivity|lia].
    - destruct (Nat.eqb_spec (n - 1 + 1) n); [f_equal; lia|lia].
    - destruct (Nat.eqb_spec 0 0); [f_equal; lia|lia]. }
  assert (GR : forall x y j fa sf, x < n -> y < n -> j < 4 -> look n x y j = Beyond fa sf -> nth_error sc (n * n + fa * n + sf) = Some [Z.of_nat (nu x y); -1; -1; -1]%Z).
  { intros x y j fa sf Hx Hy Hj L. unfold sc. rewrite nth_error_map. replace (n * n + fa * n + sf) with (n * n + n * fa + sf) by lia. rewrite (GH x y j fa sf) by auto. reflexivity. }
  assert (G : ghostsOk (-1) 4 n (n * n) sc).
  { intros fa sf Hf Hs. cbv zeta. destruct (ON fa sf Hf Hs) as (x & y & Hx & Hy & L). assert (R := GR x y fa fa sf Hx Hy Hf L). split.
    - exists (Z.of_nat (nu x y)). split; [eexists; split; [exact R|reflexivity]|lia].
    - intros f2 H2. eexists. split; [exact R|]. destruct f2 as [|[|[|[|f2]]]]; try lia; reflexivity. }
  destruct (C104_connect 2 2 4 4 n (n * n) sv sc ty ad o) as (g & c & B1 & B2 & B3 & B4 & E & Q1 & Q2 & Q3 & Q4 & TF & F); auto; try lia; try nia.
  exists nu, g, c. split; [exact NU|]. split; [exact B1|]. split; [exact B2|]. split; [exact B3|]. split; [exact B4|]. split; [exact E|]. split.
  - intros x y Hx Hy. destruct (SQ x y Hx Hy) as (S1 & S2 & S3). split.
    + intros i Hi. destruct (S1 i Hi) as (r & v & p & H1 & H2 & H3 & H4). exists v, p. split; [|auto]. rewrite Q1. replace (Z.of_nat v) with (short (zid (Some v))) by (unfold short, zid; destruct (Z.eqb_spec (Z.of_nat v) (-1)); lia). apply map_entry. unfold sv. apply map_entry. exists r. auto.
    + intros j Hj. assert (NJ : forall A (f : nat -> A), nth_error (map f [0; 1; 2; 3]) j = Some (f j)) by (intros; destruct j as [|[|[|[|j]]]]; try lia; reflexivity). split; [|split].
      * rewrite Q2. set (w := numOf n nu (look n x y j)). replace (Z.of_nat w) with (short (zid (Some w))) by (unfold short, zid; destruct (Z.eqb_spec (Z.of_nat w) (-1)); lia). apply map_entry. unfold sc. apply map_entry. eexists. split; [exact S2|]. rewrite NJ. reflexivity.
      * rewrite Q3. set (w := typeOf j (look n x y j)). replace (Z.of_nat w) with (short (Z.of_nat w)) by (unfold short; destruct (Z.eqb_spec (Z.of_nat w) (-1)); lia). apply map_entry. unfold ty. apply map_entry. eexists. split; [exact S3|]. rewrite NJ. reflexivity.
      * intros fa sf L. assert (K := look_ok n x y j Hx Hy Hj). rewrite L in K. cbn [kindOf okKind] in K. apply (F fa sf); [tauto|tauto|]. eexists. split; [apply (GR x y j); auto|reflexivity].
  - intros sf Hs. rewrite Q4. set (w := n - 1 - sf). replace (Z.of_nat w) with (short (Z.of_nat w)) by (unfold short; destruct (Z.eqb_spec (Z.of_nat w) (-1)); lia). apply map_entry. exists (map Z.of_nat (ScQuad.scDgAd deg)). split; [reflexivity|]. rewrite nth_error_map. unfold ScQuad.scDgAd. 
    rewrite (nth_error_nth' _ 0) by (rewrite rev_length, len_range; lia). rewrite rev_nth by (rewrite len_range; lia). rewrite len_range. unfold ScQuad.range. rewrite seq_nth by lia. cbn [option_map]. f_equal. f_equal. unfold w. rewrite NE. lia.
Qed.
Print Assumptions C104_quads.
Example C104_quads_ex : let n := 2 * 1 + 1 in n * n + 4 * n < 256 * 256 /\
  shaped 2 2 4 4 n (n * n) {| scSv := repeat (repeat 0%Z 4) 21; scSfSc := repeat (repeat 0%Z 4) 21; faSfSc := repeat (repeat 0%Z 3) 4; scTySf := repeat (repeat 0%Z 4) 9; scDgAd := [[0; 0; 0]%Z] |} /\
  map (map short) (map (map zid) (rows3 (ScQuad.scSfSc 1))) = [[2; 4; 6; 8]; [9; 2; 8; 20]; [10; 3; 0; 1]; [11; 12; 4; 2]; [3; 13; 5; 0]; [4; 14; 15; 6]; [0; 5; 16; 7]; [8; 6; 17; 18]; [1; 0; 7; 19]; [1; 65535; 65535; 65535]; [2; 65535; 65535; 65535]; [3; 65535; 65535; 65535]; [3; 65535; 65535; 65535]; [4; 65535; 65535; 65535]; [5; 65535; 65535; 65535]; [5; 65535; 65535; 65535]; [6; 65535; 65535; 65535]; [7; 65535; 65535; 65535]; [7; 65535; 65535; 65535]; [8; 65535; 65535; 65535]; [1; 65535; 65535; 65535]]%Z.
Proof.
  cbv zeta. split; [lia|]. split; [|vm_compute; reflexivity]. repeat split; try reflexivity; intros r Hr; try (apply repeat_spec in Hr; subst r; reflexivity). destruct Hr as [<-|[]]. reflexivity.
Qed.
