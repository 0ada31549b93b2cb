(** * XPmf: the Poisson table and the direct convolution in exact arithmetic. *)
From Flocq Require Import Core.Raux.
From Coq Require Import ZArith Reals List Bool Lia Lra String.
From Verif Require Import Base Num Hoare XReal RSum PoissonPmf Common.
Local Open Scope Z_scope.

Lemma exp_mult_nat x n : exp (INR n * x) = (exp x ^ n)%R.
Proof.
  induction n as [|n IH]; [simpl; rewrite Rmult_0_l; apply exp_0|].
  rewrite S_INR. replace ((INR n + 1) * x)%R with (INR n * x + x)%R by ring.
  rewrite exp_plus, IH. simpl. ring.
Qed.

Lemma Req_bool_false_neq x y : x <> y -> Req_bool x y = false.
Proof. intros H. destruct (Req_bool_spec x y); congruence. Qed.

Section XPmf.
Context {frexp : xr -> Z} (E : env (Xnum frexp)).
Notation XN := (Xnum frexp).
Notation gx := (@get (car XN) (Fin 0)).
Context {thr : exn -> Prop} {abt : Prop}.
Notation WP := (wp thr abt).

Lemma wp_rdx (l : list (car XN)) i (Q : car XN -> Prop) :
  0 <= i < size l -> Q (gx l i) -> WP (rd l i) Q.
Proof. exact (wp_rd _ l i Q). Qed.

Lemma pmf_formula_x l i : (0 < l)%R -> 0 <= i ->
  pmf_formula (N := XN) (Fin l) (xlog (Fin l)) (xlgamma (i + 1)) i = Fin (pois l (Z.to_nat i)).
Proof.
  intros Hl Hi. unfold pmf_formula, xlog, xlgamma. rewrite Rcompare_Gt by exact Hl.
  destruct (Z.leb_spec (i + 1) 0) as [?|_]; [lia|]. simpl. f_equal.
  replace (i + 1 - 1) with i by lia. set (k := Z.to_nat i).
  replace (IZR i) with (INR k) by (unfold k; rewrite INR_IZR_INZ, Z2Nat.id; auto).
  unfold Rminus. rewrite exp_plus, exp_plus, exp_mult_nat, exp_ln by exact Hl.
  rewrite (exp_Ropp (ln _)), exp_ln by apply INR_fact_lt_0.
  unfold pois. field. apply fact_neq.
Qed.

Definition pmfgen_ok (mk : Z) (g : pmfgen XN) : Prop :=
  pg_max_k g = mk /\ size (log_gamma_LUT g) = mk + 2 /\
  (forall i, 0 <= i < mk + 2 -> gx (log_gamma_LUT g) i = xlgamma i) /\
  size (pmf_array g) = mk + 1.

Lemma size_alloc_doubles site n : 0 <= n -> size (alloc_doubles E site n) = n.
Proof. intros. unfold size, alloc_doubles. rewrite map_length, seq_length. lia. Qed.

Lemma wp_pmfgen_make mk (Q : pmfgen XN -> Prop) : 0 < mk ->
  (forall g, pmfgen_ok mk g -> Q g) -> WP (pmfgen_make E mk) Q.
Proof.
  intros Hmk HQ. unfold pmfgen_make.
  apply wp_bind, wp_cassert_true; [apply Z.ltb_lt; exact Hmk|].
  apply wp_bind. apply wp_for with (P := fun i a => size a = mk + 2 /\
     forall j, 0 <= j < i -> gx a j = xlgamma j).
  - split; [apply size_alloc_doubles; lia|lia].
  - intros i a Hi [Hs Ha]. apply wp_wr; [lia|]. rewrite size_upd. split; auto.
    intros j Hj. rewrite get_upd by lia. destruct (Z.eqb_spec i j) as [->|]; auto. apply Ha. lia.
  - intros lut [Hs Ha]. apply wp_bind.
    apply wp_for with (P := fun _ a => size a = mk + 1).
    + apply size_alloc_doubles; lia.
    + intros i a Hi Hs'. apply wp_wr; [lia|]. rewrite size_upd. exact Hs'.
    + intros arr Hs'. apply wp_ok. apply HQ. split; [reflexivity|]. simpl.
      split; [exact Hs|]. split; [|exact Hs']. intros i Hi. apply Ha. lia.
Qed.

Lemma wp_compute_array mk g k l (Q : pmfgen XN -> Prop) :
  pmfgen_ok mk g -> 0 <= mk -> k <= mk -> (0 <= l)%R ->
  (asserts E = true -> k < 0 -> abt) ->
  ((asserts E = true -> 0 <= k) -> forall g', pmfgen_ok mk g' ->
     (forall i, 0 <= i <= k -> gx (get_array g') i = Fin (pois l (Z.to_nat i))) -> Q g') ->
  WP (compute_array E g k (Fin l)) Q.
Proof.
  intros (Hg1 & Hg2 & Hg3 & Hg4) Hmk Hk Hl Habt HQ. unfold compute_array.
  apply wp_bind. apply wp_cassert; [intros HE Hc; apply Z.leb_gt in Hc; auto|].
  intros Hk0.
  apply wp_bind, wp_cassert_true; [rewrite Hg1; apply Z.leb_le; exact Hk|].
  simpl n_lt. rewrite Rlt_bool_false by exact Hl.
  simpl n_eq. destruct (Req_bool_spec l 0) as [->|Hne].
  - apply wp_bind, wp_wr; [lia|]. apply wp_bind.
    apply wp_for with (P := fun i a => size a = mk + 1 /\
       forall j, 0 <= j < i -> gx a j = Fin (pois 0 (Z.to_nat j))).
    + rewrite size_upd. split; auto. intros j Hj. assert (j = 0) as -> by lia.
      rewrite get_upd by lia. simpl. rewrite pois_zero. reflexivity.
    + intros i a Hi [Hs Ha]. apply wp_wr; [lia|]. rewrite size_upd. split; auto.
      intros j Hj. rewrite get_upd by lia. destruct (Z.eqb_spec i j) as [->|].
      * rewrite pois_zero. destruct (Nat.eqb_spec (Z.to_nat j) 0); [lia|]. reflexivity.
      * apply Ha. lia.
    + intros a [Hs Ha]. apply wp_ok, HQ.
      * intros HE. apply Z.leb_le. auto.
      * unfold pmfgen_ok; simpl; auto.
      * intros i Hi. simpl. apply Ha. lia.
  - apply wp_bind.
    apply wp_for with (P := fun i a => size a = mk + 1 /\
       forall j, 0 <= j < i -> gx a j = Fin (pois l (Z.to_nat j))).
    + split; auto. lia.
    + intros i a Hi [Hs Ha]. apply wp_bind. apply wp_rdx; [lia|].
      apply wp_wr; [lia|]. rewrite size_upd. split; auto. intros j Hj.
      rewrite get_upd by lia. destruct (Z.eqb_spec i j) as [->|].
      * rewrite Hg3 by lia. apply pmf_formula_x; [lra|lia].
      * apply Ha. lia.
    + intros a [Hs Ha]. apply wp_ok, HQ.
      * intros HE. apply Z.leb_le. auto.
      * unfold pmfgen_ok; simpl; auto.
      * intros i Hi. simpl. apply Ha. lia.
Qed.

Lemma wp_evaluate_pmf mk g k l (Q : xr -> Prop) :
  pmfgen_ok mk g -> 0 <= k <= mk -> (0 <= l)%R ->
  Q (Fin (pois l (Z.to_nat k))) -> WP (evaluate_pmf E g (Fin l) k) Q.
Proof.
  intros (Hg1 & Hg2 & Hg3 & Hg4) Hk Hl HQ. unfold evaluate_pmf.
  apply wp_bind, wp_cassert_true; [simpl; apply Rle_bool_true; exact Hl|].
  apply wp_bind, wp_cassert_true; [apply Z.leb_le; lia|].
  simpl n_eq. destruct (Req_bool_spec l 0) as [->|Hne].
  - apply wp_ok. rewrite pois_zero in HQ.
    destruct (Z.eqb_spec k 0), (Nat.eqb_spec (Z.to_nat k) 0); auto; lia.
  - apply wp_bind, wp_rdx; [lia|]. apply wp_ok. rewrite Hg3 by lia.
    rewrite pmf_formula_x by (try lra; lia). exact HQ.
Qed.

Lemma wp_poisson_pmf k l (Q : xr -> Prop) : 0 <= k -> (0 <= l)%R ->
  Q (Fin (pois l (Z.to_nat k))) -> WP (poisson_pmf E (Fin l) k) Q.
Proof.
  intros Hk Hl HQ. unfold poisson_pmf.
  apply wp_bind, wp_cassert_true; [apply Z.leb_le; lia|].
  apply wp_bind, wp_cassert_true; [simpl; apply Rle_bool_true; exact Hl|].
  simpl n_eq. destruct (Req_bool_spec l 0) as [->|Hne].
  - apply wp_ok. rewrite pois_zero in HQ.
    destruct (Z.eqb_spec k 0), (Nat.eqb_spec (Z.to_nat k) 0); auto; lia.
  - apply wp_ok. simpl n_log. simpl n_lgamma. rewrite pmf_formula_x by (try lra; lia). exact HQ.
Qed.

(** The value of a finite element of an array *)
Definition fin_at (a : list (car XN)) (i : Z) (r : R) : Prop := gx a i = Fin r.

Lemma wp_convolve sz (s0 : list (car XN)) o0 (s1 : list (car XN)) o1 dest od (f g : nat -> R) (Q : list (car XN) -> Prop) :
  (0 < sz -> 0 <= o0 /\ o0 + sz <= size s0 /\ 0 <= o1 /\ o1 + sz <= size s1 /\ 0 <= od /\ od + sz <= size dest) ->
  (forall k, 0 <= k < sz -> gx s0 (o0 + k) = Fin (f (Z.to_nat k))) ->
  (forall k, 0 <= k < sz -> gx s1 (o1 + k) = Fin (g (Z.to_nat k))) ->
  (forall dest', size dest' = size dest ->
     (forall i, 0 <= i -> gx dest' i =
        if (od <=? i) && (i <? od + sz) then Fin (conv f g (Z.to_nat (i - od))) else gx dest i) ->
     Q dest') ->
  WP (convolve_same_size (N := XN) sz s0 o0 s1 o1 dest od) Q.
Proof.
  intros Hb H0 H1 HQ. unfold convolve_same_size.
  apply wp_for with (P := fun j a => size a = size dest /\
     forall i, 0 <= i -> gx a i =
        if (od <=? i) && (i <? od + j) then Fin (conv f g (Z.to_nat (i - od))) else gx dest i).
  - split; auto. intros i Hi. destruct (Z.leb_spec od i), (Z.ltb_spec i (od + 0)); simpl; auto; lia.
  - intros j a Hj [Hs Ha]. apply wp_bind.
    apply wp_for with (P := fun k acc => acc = Fin (rsum (Z.to_nat k) (fun k => (f k * g (Z.to_nat j - k)%nat)%R))).
    + reflexivity.
    + intros k acc Hk ->. apply wp_bind, wp_rdx; [lia|].
      apply wp_bind, wp_rdx; [lia|]. apply wp_ok.
      rewrite H0, H1 by lia. simpl n_mul. simpl n_add.
      replace (Z.to_nat (k + 1)) with (S (Z.to_nat k)) by lia. cbn [rsum].
      replace (Z.to_nat (j - k)) with (Z.to_nat j - Z.to_nat k)%nat by lia. reflexivity.
    + intros acc Hacc. apply wp_wr; [lia|]. rewrite size_upd. split; auto. intros i Hi.
      rewrite get_upd by lia. rewrite Ha by lia.
      destruct (Z.eqb_spec (od + j) i) as [<-|Hne].
      * destruct (Z.leb_spec od (od + j)), (Z.ltb_spec (od + j) (od + (j + 1))); simpl; try lia.
        rewrite Hacc. unfold conv. replace (od + j - od) with j by lia.
        replace (Z.to_nat (Z.max 0 (j + 1))) with (S (Z.to_nat j)) by lia. reflexivity.
      * destruct (Z.leb_spec od i), (Z.ltb_spec i (od + j)),
          (Z.ltb_spec i (od + (j + 1))); simpl; auto; lia.
  - intros a [Hs Ha]. apply HQ; auto. intros i Hi. rewrite Ha by lia.
    destruct (Z.leb_spec od i), (Z.ltb_spec i (od + Z.max 0 sz)),
      (Z.ltb_spec i (od + sz)); simpl; auto; lia.
Qed.
End XPmf.
