(** Facts of the tables of the basis, the initial values and the error norms. *)
From Coq Require Import List ZArith Reals Lra Lia Bool.
From Verif Require Import Util BasisSpec BasisInt BasisOrth BasisSpan Basis Props_Basis EdgePreM EdgePreP Qpts QptsSpec QptsP Props_Qpts.
From Verif Require Mapping Comm CommProofs.
Import ListNotations.
Local Open Scope R_scope.

Lemma ref_shaped tol el : 0 < tol < 1 -> wellShaped tol el (refVes el).
Proof.
  intros T. destruct el; cbn [wellShaped refVes]; unfold volJ, cross2, triple, edg, vx; cbn [ax nth]; [exact Logic.I|..]; (repeat split; try lra).
  all: try (intros [|[|[|[|[|i]]]]]; reflexivity). 1: destruct d as [|[|[|[|d]]]]; cbn; lra. all: destruct d as [|[|[|[|d]]]]; cbn; lra.
Qed.
Lemma ref_qpts gl tol el n : (0 < n)%nat -> isGauss gl n -> 0 < tol < 1 -> getQpts gl tol el n (refVes el) = Ok (refPts gl el n).
Proof.
  intros Hn G T. rewrite qpts_ok; [|assumption|assumption|lra|now apply ref_shaped]. f_equal. rewrite <- (map_id (refPts gl el n)) at 2. apply map_ext_in. intros q Hq.
  assert (Z0 : forall x y z w, In (x, y, z, w) (refPts gl el n) -> match dim el with 1%nat => y = 0 /\ z = 0 | 2%nat => z = 0 | _ => True end).
  { intros x y z w I. destruct el; cbn [refPts dim] in *; [apply in_map_iff in I; destruct I as (p & [= <- <- <- <-] & _); now split|..|exact Logic.I|exact Logic.I];
      apply in_flat_map in I; destruct I as (p1 & _ & I); apply in_map_iff in I; destruct I as (p & [= <- <- <- <-] & _); reflexivity. }
  destruct q as (((x & y) & z) & w). specialize (Z0 x y z w Hq). unfold phys, affMap, volJ, cross2, triple, edg, vx. destruct el; cbn [dim refVes nth ax Nat.ltb Nat.leb] in *; try destruct Z0 as (-> & ->); subst; apply qeq; try ring.
  replace ((1 - 0) * (1 - 0) + (0 - 0) * (0 - 0) + (0 - 0) * (0 - 0)) with 1 by ring. rewrite sqrt_1. ring.
Qed.
Lemma inside_regular el x y z : inside el x y z -> regular el x y z. Proof. destruct el; cbn; try tauto; lra. Qed.
Lemma der_ok el order b di x y z : (order <= maxOrder el)%nat -> (b < nMds el order)%nat -> (di < dim el)%nat -> regular el x y z -> exists v, evalBasis el b x y z (Z.of_nat di) order = Ok v.
Proof.
  intros Ho Hb Hd G. destruct el.
  - assert (di = 0%nat) by (cbn in Hd; lia). subst. eexists. exact (C83_value Line order b x y z Ho Hb G).
  - destruct (C83_derivative Quad order b di x y z Ho Hb Hd G) as (d & E & _). eauto.
  - destruct (C83_derivative Tria order b di x y z Ho Hb Hd G) as (d & E & _). eauto.
  - destruct (C83_derivative Hex order b di x y z Ho Hb Hd G) as (d & E & _). eauto.
  - destruct (C83_derivative Tet order b di x y z Ho Hb Hd G) as (d & E & _). eauto.
Qed.
Lemma nb_large el o b : (o <= 11)%nat -> (b < nMds el o)%nat -> 1 / 1000000 < nb el o b.
Proof.
  intros Ho Hb. unfold nb. pose proof (modeAt_ok el o b Hb) as K. destruct (modeAt el o b) as ((p & q) & r).
  assert (V : forall k, (1 <= k <= 25)%nat -> / 25 <= / INR k) by (intros k Hk; apply Rinv_le_contravar; [apply lt_0_INR; lia|]; replace 25 with (INR 25) by (cbn; lra); apply le_INR; lia).
  assert (M : forall a b, / 25 <= a -> / 25 <= b -> / 625 <= a * b) by (intros; replace (/ 625) with (/ 25 * / 25) by lra; apply Rmult_le_compat; lra).
  assert (M3 : forall a b c, / 25 <= a -> / 25 <= b -> / 25 <= c -> / 15625 <= a * b * c) by (intros a b' c Ha Hb' Hc; pose proof (M a b' Ha Hb'); replace (/ 15625) with (/ 625 * / 25) by lra; apply Rmult_le_compat; lra).
  destruct el; cbn [okE norm2] in *.
  - pose proof (V (2 * p + 1)%nat ltac:(lia)). lra.
  - pose proof (M _ _ (V (2 * p + 1)%nat ltac:(lia)) (V (2 * q + 1)%nat ltac:(lia))). lra.
  - pose proof (M _ _ (V (2 * p + 1)%nat ltac:(lia)) (V (2 * p + 2 * q + 2)%nat ltac:(lia))). lra.
  - pose proof (M3 _ _ _ (V (2 * p + 1)%nat ltac:(lia)) (V (2 * q + 1)%nat ltac:(lia)) (V (2 * r + 1)%nat ltac:(lia))). lra.
  - pose proof (M3 _ _ _ (V (2 * p + 1)%nat ltac:(lia)) (V (2 * p + 2 * q + 2)%nat ltac:(lia)) (V (2 * p + 2 * q + 2 * r + 3)%nat ltac:(lia))). lra.
Qed.
(** a diagonal matrix in coordinate format *)
Lemma crd_diag t n (a d : nat -> R) : 0 <= t -> (forall i, (i < n)%nat -> t < d i) -> (forall i j, (i < n)%nat -> (j < n)%nat -> a (i * n + j)%nat = if (i =? j)%nat then d i else 0) ->
  denseToCrd t n a = map (fun i => (i, i, d i)) (seq 0 n).
Proof.
  intros Ht D A. unfold denseToCrd.
  assert (Rw : forall i, (i < n)%nat -> flat_map (fun co => if rlt t (Rabs (a (i * n + co)%nat)) then [(i, co, a (i * n + co)%nat)] else []) (seq 0 n) = [(i, i, d i)]).
  { intros i Hi. assert (Q : forall k, (k <= n)%nat -> flat_map (fun co => if rlt t (Rabs (a (i * n + co)%nat)) then [(i, co, a (i * n + co)%nat)] else []) (seq 0 k) = if (i <? k)%nat then [(i, i, d i)] else []).
    { induction k as [|k IH]; intros Hk; [reflexivity|]. rewrite seq_S, flat_map_app, IH by lia. cbn [flat_map plus]. rewrite app_nil_r. rewrite A by lia. destruct (Nat.eqb_spec i k) as [->|N].
      - specialize (D k ltac:(lia)). rewrite Rabs_pos_eq by lra. rewrite rlt_true by lra. rewrite Nat.ltb_irrefl. destruct (Nat.ltb_spec k (S k)); [reflexivity|lia].
      - rewrite Rabs_R0, rlt_false by lra. rewrite app_nil_r. destruct (Nat.ltb_spec i k), (Nat.ltb_spec i (S k)); try reflexivity; lia. }
    rewrite Q by lia. destruct (Nat.ltb_spec i n); [reflexivity|lia]. }
  rewrite (flat_ext _ (fun i => [(i, i, d i)])); [|intros i I; apply in_seq in I; apply Rw; lia]. clear. induction (seq 0 n) as [|i l IH]; cbn; [reflexivity|]. now rewrite IH.
Qed.
Lemma for_lsum {A} (l : list A) F body : (forall i a s, nth_error l i = Some a -> body i (Some s) = Ok (Some (s + F a))) -> for_ 0 (length l) body (Some 0) = Ok (Some (lsum l F)).
Proof.
  intros H. destruct (for_ok (fun k s => s = Some (lsum (firstn k l) F)) 0 (length l) body (Some 0)) as (s & E & I); [lia|reflexivity| |].
  - intros k s Hk ->. destruct (nth_error l k) as [a|] eqn:Ea; [|apply nth_error_None in Ea; lia]. eexists. split; [apply (H k a _ Ea)|]. rewrite (firstn_S_snoc l k a Ea), lsum_app. cbn. do 2 f_equal. ring.
  - rewrite firstn_all in I. now subst.
Qed.
Lemma rd_map {A B} (f : A -> B) l i a : nth_error l i = Some a -> rd (map f l) i = Ok (f a). Proof. intros H. unfold rd. now rewrite nth_error_map, H. Qed.
Lemma rd_seq {B} (f : nat -> B) n i : (i < n)%nat -> rd (map f (seq 0 n)) i = Ok (f i). Proof. intros H. apply (rd_map f). now rewrite nth_error_seq. Qed.

Section B.
Variables (gl : nat -> nat -> R * R) (tol : R) (el : refEl) (o : nat) (raw : list R) (m : matrix).
Hypotheses (Ho : (1 <= o)%nat) (Hm : (o + 1 <= maxOrder el)%nat) (HG : forall k, (1 <= k <= o + 1)%nat -> isGauss gl k) (HT : 0 < tol < 1).
Hypotheses (HM : isMass el o m) (HL : length raw = (nMds el o * nMds el o)%nat) (HR : forall i j, (i < nMds el o)%nat -> (j < nMds el o)%nat -> nth (i * nMds el o + j)%nat raw 0 = m i j).
Let N := nMds el o.
Definition theQp (pq : nat) : qpEval := mkQp (map qW (refPts gl el (pq + 1))) (map (fun q => let '(x, y, z, _) := q in map (fun pb => map (fun md => Some (phi el (modeAt el (pb + 1) md) x y z)) (seq 0 (nMds el (pb + 1)))) (seq 0 (o + 1))) (refPts gl el (pq + 1))).
Definition theBasis : basis := mkBasis el o (map (fun i => (i, i, nb el o i)) (seq 0 N)) (map theQp (seq 0 (o + 1))).
Lemma init_ok : initEval gl tol el (o + 1) = Ok (map theQp (seq 0 (o + 1))).
Proof.
  apply mapM_Ok. intros pq Hp. apply in_seq in Hp. assert (G : isGauss gl (pq + 1)) by (apply HG; lia). rewrite ref_qpts by (assumption || lia). cbn [bind].
  rewrite (mapM_Ok _ (fun q => let '(x, y, z, _) := q in map (fun pb => map (fun md => Some (phi el (modeAt el (pb + 1) md) x y z)) (seq 0 (nMds el (pb + 1)))) (seq 0 (o + 1)))); [reflexivity|].
  intros (((x & y) & z) & w) Hq. destruct (refPts_in _ _ _ _ _ _ _ G Hq) as (I & _). apply inside_regular in I. apply mapM_Ok. intros pb Hb. apply in_seq in Hb. apply mapM_Ok. intros md Hd. apply in_seq in Hd.
  rewrite C83_value by (assumption || lia). cbn [bind].
  destruct (CommProofs.mapM_ok (fun di => evalBasis el md x y z (Z.of_nat di) (pb + 1)) (fun _ _ => True) (seq 0 (dim el))) as (r & E & _); [|rewrite E; reflexivity].
  intros di Hi. apply in_seq in Hi. destruct (der_ok el (pb + 1) md di x y z) as (v & E); try lia; try assumption. eauto.
Qed.
Lemma new_ok : newBasis gl tol el o raw = Ok theBasis.
Proof.
  unfold newBasis. rewrite HL, Nat.eqb_refl. cbn [check bind]. rewrite init_ok. cbn [bind]. unfold theBasis. do 2 f_equal. apply crd_diag; [lra| |].
  - intros i Hi. apply nb_large; [|exact Hi]. destruct el; cbn [maxOrder] in Hm; lia.
  - intros i j Hi Hj. rewrite HR by assumption. now apply mass_val.
Qed.
Lemma basVal_ok qp x y z w md : nth_error (refPts gl el (o + 1)) qp = Some (x, y, z, w) -> (md < N)%nat -> basVal theBasis (o + 1) qp md = Ok (Some (bas el o md x y z)).
Proof. clear HM HL HR raw m Hm HT tol HG.
  intros E Hd. unfold basVal, theBasis. cbn [bQp bO]. rewrite rd_seq by lia. cbn [bind]. replace (o + 1 - 1)%nat with o by lia. unfold theQp. cbn [qpVal]. rewrite (rd_map _ _ _ _ E). cbn [bind].
  rewrite rd_seq by lia. cbn [bind]. replace (o - 1 + 1)%nat with o by lia. now rewrite rd_seq.
Qed.
(** coefficient of a mode: projection by quadrature *)
Definition proj (g : R -> R -> R -> R) (md : nat) : R := rule (refPts gl el (o + 1)) (fun x y z => bas el o md x y z * g x y z) / nb el o md.
Lemma modal_ok g : qpts2modal theBasis (map (fun q => let '(x, y, z, _) := q in g x y z) (refPts gl el (o + 1))) (o + 1) = Ok (map (fun md => Some (proj g md)) (seq 0 N)).
Proof. clear HM HL HR raw m Hm HT tol HG.
  unfold qpts2modal. destruct (Nat.ltb_spec 0 (o + 1)); [|lia]. cbn [check bind theBasis bQp]. rewrite map_length, seq_length. rewrite Nat.leb_refl. cbn [check bind bEl bO]. apply mapM_Ok. intros md Hd. apply in_seq in Hd.
  rewrite rd_seq by lia. cbn [bind]. replace (o + 1 - 1)%nat with o by lia. unfold theQp at 1. cbn [qpW]. rewrite map_length.
  rewrite (for_lsum (refPts gl el (o + 1)) (fun q => let '(x, y, z, w) := q in w * (bas el o md x y z * g x y z))).
  - cbn [bind theBasis bMass]. rewrite nth_error_map, nth_error_seq by (fold N in Hd; lia). cbn [option_map plus]. rewrite Nat.eqb_refl. cbn [check bind]. unfold ndiv. destruct (Req_EM_T (nb el o md) 0) as [Z0|_]; [now apply nb_nz in Z0|]. reflexivity.
  - intros i (((x & y) & z) & w) s E. rewrite (rd_map _ _ _ _ E). cbn [bind]. fold theBasis. rewrite (basVal_ok i x y z w) by (assumption || (fold N in Hd; lia)). cbn [bind]. unfold theQp. cbn [qpW]. rewrite (rd_map _ _ _ _ E). cbn [bind qW snd nadd nmul nlift]. do 2 f_equal. ring.
Qed.
Definition recon (c : nat -> R) (x y z : R) : R := rsum N (fun md => c md * bas el o md x y z).
Lemma ptVal_ok qp x y z w (c : nat -> R) : nth_error (refPts gl el (o + 1)) qp = Some (x, y, z, w) -> modal2refPtVal theBasis (o + 1) qp (map (fun md => Some (c md)) (seq 0 N)) = Ok (Some (recon c x y z)).
Proof. clear HM HL HR raw m Hm HT tol HG.
  intros E. unfold modal2refPtVal. cbn [theBasis bEl bO]. fold N. fold theBasis. replace N with (length (seq 0 N)) at 1 by apply seq_length. rewrite (for_lsum (seq 0 N) (fun md => c md * bas el o md x y z)).
  - now rewrite lsum_seq.
  - intros i a s Ea. assert (i < N)%nat by (rewrite <- (seq_length N 0); apply nth_error_Some; congruence). rewrite nth_error_seq in Ea by assumption. injection Ea as <-. cbn [plus].
    rewrite (basVal_ok qp x y z w) by assumption. cbn [bind]. rewrite rd_seq by assumption. cbn [bind nadd nmul nlift]. do 2 f_equal. ring.
Qed.
(** products of polynomials of the order are integrated *)
Lemma deg_ok : forall a b, okE el o a -> okE el o b -> okE el (exactDeg el (o + 1)) (addE a b).
Proof. clear - Ho. intros ((i & j) & k) ((i' & j') & k'). destruct el; cbn [okE exactDeg addE]; lia. Qed.
Lemma proj_int g md : wpoly el (okE el o) g -> (md < N)%nat -> intEl el (fun x y z => bas el o md x y z * g x y z) (proj g md * nb el o md).
Proof. clear HM HL HR raw m Hm HT tol.
  intros W Hd. unfold proj. replace (_ / _ * _) with (rule (refPts gl el (o + 1)) (fun x y z => bas el o md x y z * g x y z)) by (field; apply nb_nz). apply ref_exact; [apply HG; lia|]. eapply wp_mul; [apply deg_ok|now apply bas_wp|exact W].
Qed.
Lemma proj_exact g : wpoly el (okE el o) g -> forall x y z, recon (proj g) x y z = g x y z.
Proof. clear HM HL HR raw m Hm HT tol.
  intros W x y z. rewrite (expand el o g (fun b => proj g b * nb el o b)); [|now apply span|intros b Hb; now apply proj_int]. unfold recon. apply rsum_ext. intros i Hi. field. apply nb_nz.
Qed.
Lemma recon_wp c : wpoly el (okE el o) (recon c).
Proof. apply (wp_rsum el (okE el o) N (fun md x y z => c md * bas el o md x y z)). intros i Hi. apply wp_scal. now apply bas_wp. Qed.
(** the modes are those of the projection: the remainder is orthogonal, with respect to the quadrature, to all basis functions *)
Lemma proj_orth g md : (md < N)%nat -> rule (refPts gl el (o + 1)) (fun x y z => bas el o md x y z * (g x y z - recon (proj g) x y z)) = 0.
Proof. clear HM HL HR raw m Hm HT tol.
  intros Hd. rewrite (rule_ext _ _ (fun x y z => bas el o md x y z * g x y z + (-1) * (bas el o md x y z * recon (proj g) x y z))) by (intros; ring). rewrite rule_add, rule_scal.
  pose proof (ref_exact gl el (o + 1) (fun x y z => bas el o md x y z * recon (proj g) x y z) (HG (o + 1)%nat ltac:(lia)) (wp_mul el _ _ _ _ _ deg_ok (bas_wp el o md Hd) (recon_wp (proj g)))) as A.
  pose proof (int_span el o (recon (proj g)) (proj g) md Hd (fun x y z => eq_refl)) as B. rewrite (intEl_unique el _ _ _ A B). unfold proj. field. apply nb_nz.
Qed.
End B.
