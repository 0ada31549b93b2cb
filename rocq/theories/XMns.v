(** * XMns: ecdf1_mns2016_b and ecdf1_mns2016_B in exact arithmetic. *)
From Coquelicot Require Import Coquelicot.
From Flocq Require Import Core.Zaux Core.Raux.
From Coq Require Import ZArith Reals List Bool Lia Lra String Factorial.
From Verif Require Import Base Num Hoare XReal RSum Common Ecdf1Mns XPmf.
From Verif Require Import Spec SpecFacts Cells Events XCommon XEcdf2 NewMath XEcdf1New Reflect MnsMath.
Import List.
Local Open Scope Z_scope.

Definition peval (m a : nat -> R) (k : nat) (x : R) : R :=
  rsum (S k) (fun i => m i * (x + a i) ^ i)%R.
Definition int_m (m : nat -> R) (i : nat) : R := match i with O => 0 | S j => (m j / INR (S j))%R end.
Definition int_a (a : nat -> R) (c : R) (i : nat) : R :=
  match i with O => 0 | S O => c | S j => a j end.
Definition upd0 (m : nat -> R) (v : R) (i : nat) : R := match i with O => v | _ => m i end.

Lemma peval_int_derive m a c v k x :
  is_derive (peval (upd0 (int_m m) v) (int_a a c) (S k)) x (peval m a k x).
Proof.
  unfold peval. eapply is_derive_ext.
  { intros t. symmetry. rewrite rsum_first. reflexivity. }
  replace (rsum (S k) (fun i => (m i * (x + a i) ^ i)%R)) with
     (0 + rsum (S k) (fun i => (m i * (x + a i) ^ i)%R))%R by ring.
  apply (is_derive_plus (V := R_NormedModule)).
  - apply is_derive_ext with (f := fun _ : R => v).
    + intros t. simpl. match goal with |- @eq _ ?u ?w => change (@eq R u w) end. ring.
    + apply (is_derive_const (V := R_NormedModule)).
  - apply is_derive_rsum. intros i Hi.
    assert (Hi0 : INR (S i) <> 0%R) by (apply not_0_INR; lia).
    destruct i as [|i].
    + replace (m 0%nat * (x + a 0%nat) ^ 0)%R with ((m 0%nat / INR 1) * (INR 1 * (x + c) ^ 0))%R by (simpl; field).
      apply is_derive_shift_pow.
    + replace (m (S i) * (x + a (S i)) ^ (S i))%R
        with ((m (S i) / INR (S (S i))) * (INR (S (S i)) * (x + a (S i)) ^ (S i)))%R by (field; exact Hi0).
      apply is_derive_shift_pow.
Qed.

(** one iteration on the polynomial: the antiderivative vanishing at c *)
Definition step_m (m a : nat -> R) (k : nat) (c : R) : nat -> R :=
  upd0 (int_m m) (- peval (int_m m) (int_a a (- c)) (S k) c).

Lemma peval_upd0 m a v k x : m 0%nat = 0%R -> peval (upd0 m v) a k x = (v + peval m a k x)%R.
Proof.
  intros H0. unfold peval. rewrite !rsum_first. simpl upd0. rewrite H0. simpl pow.
  replace (v * 1 + rsum k (fun i => m (S i) * ((x + a (S i)) * (x + a (S i)) ^ i)))%R with
    (v + (0 * 1 + rsum k (fun i => m (S i) * ((x + a (S i)) * (x + a (S i)) ^ i))))%R by ring.
  reflexivity.
Qed.

Lemma step_peval (b : list R) m a k s : 
  (forall x, peval m a k x = h b k x * s)%R ->
  forall x, (peval (step_m m a k (Bf b k)) (int_a a (- Bf b k)) (S k) x = h b (S k) x * s)%R.
Proof.
  intros Hp. apply antiderivative_unique with (c := Bf b k).
  - intros x. exists (peval m a k x). split; [apply peval_int_derive|].
    rewrite Hp, Rmult_comm. eapply is_derive_ext; [intros t; apply Rmult_comm|].
    apply (is_derive_scal (h b (S k)) x s (h b k x)). apply h_derive.
  - rewrite h_at, Rmult_0_l. unfold step_m. rewrite peval_upd0 by reflexivity. ring.
Qed.

Section Prog.
Context {frexp frexpl : xr -> Z} (E : env (Xnum frexp)).
Notation XN := (Xnum frexpl).
Notation gx := (@get (car XN) (Fin 0)).
Context {thr : exn -> Prop} {abt : Prop}.
Notation WP := (wp thr abt).
Variable n : nat.

Definition rep (p : ptm XN) (k : nat) (m a : nat -> R) : Prop :=
  degree p = Z.of_nat k /\ size (mult p) = Z.of_nat n + 2 /\ size (addc p) = Z.of_nat n + 2 /\
  (forall i, (i <= k)%nat -> gx (mult p) (Z.of_nat i) = Fin (m i) /\ gx (addc p) (Z.of_nat i) = Fin (a i)).

Lemma rep_ext p k m a m' a' : rep p k m a ->
  (forall i, (i <= k)%nat -> m i = m' i /\ a i = a' i) -> rep p k m' a'.
Proof.
  intros (H1 & H2 & H3 & H4) H. repeat split; auto; destruct (H4 i H0) as [Ha Hb], (H i H0) as [Hc Hd]; congruence.
Qed.

Lemma wp_integrate p k m a (Q : ptm XN -> Prop) : rep p k m a -> (k <= n)%nat ->
  (forall p', rep p' (S k) (int_m m) (int_a a 0) -> Q p') -> WP (integrate p) Q.
Proof.
  intros (Hd & Hsm & Hsa & Hg) Hk HQ. unfold integrate. rewrite Hd. apply wp_bind.
  apply wp_for_down with (P := fun j ma =>
    @size (car XN) (fst ma) = Z.of_nat n + 2 /\ @size (car XN) (snd ma) = Z.of_nat n + 2 /\
    (forall i, (i <= k)%nat -> Z.of_nat i <= j -> gx (fst ma) (Z.of_nat i) = Fin (m i) /\ gx (snd ma) (Z.of_nat i) = Fin (a i)) /\
    (forall i, (i <= k)%nat -> j < Z.of_nat (S i) -> gx (fst ma) (Z.of_nat (S i)) = Fin (m i / INR (S i)) /\ gx (snd ma) (Z.of_nat (S i)) = Fin (a i))).
  - cbn [fst snd]. repeat split; auto; try (apply Hg; lia); lia.
  - intros j [ml al] Hj (Hs1 & Hs2 & Hlo & Hhi). cbn [fst snd] in *.
    assert (Hidx : Z.of_nat (Z.to_nat (j - 1)) = j - 1) by lia.
    destruct (Hlo (Z.to_nat (j - 1))) as [Hm Ha]; [lia|lia|]. rewrite Hidx in Hm, Ha.
    apply wp_bind, wp_rdx; [lia|]. rewrite Hm.
    assert (Hdiv : @n_div XN (Fin (m (Z.to_nat (j - 1)))) (n_of_Z j) = Fin (m (Z.to_nat (j - 1)) / INR (S (Z.to_nat (j - 1))))).
    { cbn [n_div n_of_Z Xnum xdiv]. rewrite Req_bool_false by (apply not_0_IZR; lia).
      rewrite INR_IZR_INZ. do 3 f_equal. lia. }
    rewrite Hdiv. apply wp_bind, wp_wr; [lia|].
    apply wp_bind, wp_rdx; [lia|]. rewrite Ha. apply wp_bind, wp_wr; [lia|]. apply wp_ok. cbn [fst snd].
    rewrite !size_upd. split; [auto|]. split; [auto|]. split.
    + intros i Hi Hij. rewrite !get_upd by lia. destruct (Z.eqb_spec j (Z.of_nat i)); [lia|]. apply Hlo; lia.
    + intros i Hi Hij. rewrite !get_upd by lia. destruct (Z.eqb_spec j (Z.of_nat (S i))) as [->|Hne].
      * replace (Z.to_nat (Z.of_nat (S i) - 1)) with i by lia. auto.
      * apply Hhi; lia.
  - intros [ml al] (Hs1 & Hs2 & Hlo & Hhi). cbn [fst snd] in *.
    apply wp_bind, wp_wr; [lia|]. apply wp_bind, wp_wr; [rewrite size_upd; lia|].
    apply wp_bind, wp_wr; [lia|]. apply wp_ok. apply HQ. unfold rep. cbn [degree mult addc].
    rewrite !size_upd. split; [lia|]. split; [auto|]. split; [auto|].
    intros i Hi. rewrite !get_upd by (rewrite ?size_upd; lia).
    destruct i as [|i]; [split; reflexivity|].
    destruct (Hhi i) as [H1 H2]; [lia|lia|]. rewrite H1, H2.
    destruct (Z.eqb_spec 0 (Z.of_nat (S i))); [lia|].
    destruct i as [|i]; [split; reflexivity|].
    destruct (Z.eqb_spec 1 (Z.of_nat (S (S i)))); [lia|]. split; reflexivity.
Qed.

Lemma wp_check_degree p k m a d (Q : unit -> Prop) : rep p k m a -> 0 <= d <= Z.of_nat k -> Q tt ->
  WP (check_degree E p d) Q.
Proof.
  intros (Hd & _) Hk HQ. unfold check_degree. rewrite Hd.
  apply wp_bind, wp_cassert_true; [apply Z.leb_le; lia|]. apply wp_cassert_true; [apply Z.leb_le; lia|]. exact HQ.
Qed.

Lemma wp_evaluate p k m a x (Q : car XN -> Prop) : rep p k m a -> (k <= n + 1)%nat ->
  Q (Fin (peval m a k x)) -> WP (evaluate p (Fin x)) Q.
Proof.
  intros (Hd & Hsm & Hsa & Hg) Hk HQ. unfold evaluate. rewrite Hd.
  apply wp_for with (P := fun j r => r = Fin (rsum (Z.to_nat j) (fun i => m i * (x + a i) ^ i)%R)).
  - reflexivity.
  - intros j r Hj ->. assert (Hjj : Z.of_nat (Z.to_nat j) = j) by lia.
    destruct (Hg (Z.to_nat j)) as [H1 H2]; [lia|]. rewrite Hjj in H1, H2.
    apply wp_bind, wp_rdx; [lia|]. apply wp_bind, wp_rdx; [lia|]. rewrite H1, H2. apply wp_ok.
    replace (Z.to_nat (j + 1)) with (S (Z.to_nat j)) by lia. rewrite rsum_S. reflexivity.
  - intros r ->. replace (Z.to_nat (Z.max 0 (Z.of_nat k + 1))) with (S k) by lia. exact HQ.
Qed.

Lemma wp_set_add p k m a v (Q : ptm XN -> Prop) : rep p (S k) m (int_a a 0) -> (k <= n)%nat ->
  (forall p', rep p' (S k) m (int_a a v) -> Q p') ->
  WP (set_additive_coefficient E p 1 (Fin v)) Q.
Proof.
  intros Hr Hk HQ. unfold set_additive_coefficient.
  apply wp_bind. eapply wp_check_degree; [exact Hr|lia|].
  destruct Hr as (Hd & Hsm & Hsa & Hg). apply wp_bind, wp_wr; [lia|]. apply wp_ok, HQ.
  unfold rep. cbn [degree mult addc]. rewrite size_upd. repeat split; auto.
  - apply Hg; auto.
  - rewrite get_upd by lia. destruct (Hg i H) as [_ Ha]. destruct i as [|[|i]]; [exact Ha|reflexivity|].
    destruct (Z.eqb_spec 1 (Z.of_nat (S (S i)))); [lia|]. exact Ha.
Qed.

Lemma wp_set_mult0 p k m a v (Q : ptm XN -> Prop) : rep p k m a -> (k <= n + 1)%nat ->
  (forall p', rep p' k (upd0 m v) a -> Q p') ->
  WP (set_multiplicative_coefficient E p 0 (Fin v)) Q.
Proof.
  intros Hr Hk HQ. unfold set_multiplicative_coefficient.
  apply wp_bind. eapply wp_check_degree; [exact Hr|lia|].
  destruct Hr as (Hd & Hsm & Hsa & Hg). apply wp_bind, wp_wr; [lia|]. apply wp_ok, HQ.
  unfold rep. cbn [degree mult addc]. rewrite size_upd. repeat split; auto.
  - rewrite get_upd by lia. destruct (Hg i H) as [Ha _]. destruct i as [|i]; [reflexivity|].
    destruct (Z.eqb_spec 0 (Z.of_nat (S i))); [lia|]. exact Ha.
  - apply Hg; auto.
Qed.

Lemma wp_ldexp_all p k m a e (Q : ptm XN -> Prop) : rep p k m a -> (k <= n + 1)%nat ->
  (forall p', rep p' k (fun i => m i * bpow radix2 e)%R a -> Q p') ->
  WP (ldexp_all_multiplicative_coefficients p e) Q.
Proof.
  intros (Hd & Hsm & Hsa & Hg) Hk HQ. unfold ldexp_all_multiplicative_coefficients. rewrite Hd.
  apply wp_bind.
  apply wp_for with (P := fun j l => @size (car XN) l = Z.of_nat n + 2 /\
    forall i, (i <= k)%nat -> gx l (Z.of_nat i) = Fin (if Z.of_nat i <? j then m i * bpow radix2 e else m i)).
  - split; auto. intros i Hi. destruct (Z.ltb_spec (Z.of_nat i) 0); [lia|]. apply Hg; auto.
  - intros j l Hj [Hs Hl]. assert (Hjj : Z.of_nat (Z.to_nat j) = j) by lia.
    pose proof (Hl (Z.to_nat j) ltac:(lia)) as H1. rewrite Hjj, Z.ltb_irrefl in H1.
    apply wp_bind, wp_rdx; [lia|]. rewrite H1. apply wp_wr; [lia|]. rewrite size_upd. split; auto.
    intros i Hi. rewrite get_upd by lia. destruct (Z.eqb_spec j (Z.of_nat i)) as [->|Hne].
    + destruct (Z.ltb_spec (Z.of_nat i) (Z.of_nat i + 1)); [|lia]. rewrite Nat2Z.id. reflexivity.
    + rewrite Hl by auto. destruct (Z.ltb_spec (Z.of_nat i) j), (Z.ltb_spec (Z.of_nat i) (j + 1)); auto; lia.
  - intros l [Hs Hl]. apply wp_ok, HQ. unfold rep. cbn [degree mult addc]. repeat split; auto.
    + rewrite Hl by auto. destruct (Z.ltb_spec (Z.of_nat i) (Z.max 0 (Z.of_nat k + 1))); [reflexivity|lia].
    + apply Hg; auto.
Qed.

Lemma wp_get_mult p k m a d (Q : car XN -> Prop) : rep p k m a -> (k <= n + 1)%nat -> 0 <= d <= Z.of_nat k ->
  (forall x, Q x) -> WP (get_multiplicative_coefficient E p d) Q.
Proof.
  intros Hr Hk Hdk HQ. unfold get_multiplicative_coefficient. apply wp_bind.
  eapply wp_check_degree; [exact Hr|auto|]. destruct Hr as (Hd & Hsm & _).
  apply wp_rdx; [lia|]. apply HQ.
Qed.

Lemma wp_max p k m a (Q : car XN -> Prop) : rep p (S k) m a -> (k <= n)%nat ->
  (forall x, Q x) -> WP (maximum_multiplicative_coefficient E p) Q.
Proof.
  intros Hr Hk HQ. unfold maximum_multiplicative_coefficient. pose proof Hr as (Hd & _). rewrite Hd.
  apply wp_bind, wp_cassert_true; [apply Z.leb_le; lia|].
  apply wp_bind. eapply wp_get_mult; [exact Hr|lia|lia|]. intros x0.
  apply wp_for with (P := fun _ _ => True); auto.
  intros j t Hj _. apply wp_bind. eapply wp_get_mult; [exact Hr|lia|lia|]. intros y. apply wp_ok. exact I.
Qed.

Definition good (b : list R) (k : nat) (s : ptm XN * Z) : Prop :=
  exists m a, rep (fst s) k m a /\ forall x, peval m a k x = (h b k x * bpow radix2 (snd s))%R.

Lemma wp_mns_step (b : list R) k s : length b = n -> (k < n)%nat -> good b k s ->
  WP (mns_step E (exact_ld frexpl) (map Fin b) (Z.of_nat k) s) (good b (S k)).
Proof.
  intros Hb Hk (m & a & Hr & Hp). destruct s as [p delta]. simpl in Hr, Hp. unfold mns_step.
  apply wp_bind. eapply wp_integrate; [exact Hr|lia|]. intros p1 Hr1.
  apply wp_bind. apply wp_rd_B; [lia|]. rewrite Nat2Z.id.
  change (n_neg (Fin (Bf b k) : car XN)) with (Fin (- Bf b k)).
  apply wp_bind. eapply wp_set_add; [exact Hr1|lia|]. intros p2 Hr2.
  apply wp_bind. eapply wp_evaluate; [exact Hr2|lia|].
  match goal with |- context [n_neg (Fin ?v : car XN)] => change (n_neg (Fin v : car XN)) with (Fin (- v)) end.
  apply wp_bind. eapply wp_set_mult0; [exact Hr2|lia|]. intros p3 Hr3.
  fold (step_m m a k (Bf b k)) in Hr3. pose proof (step_peval b m a k _ Hp) as Hp3.
  assert (Hgood : good b (S k) (p3, delta)) by (do 2 eexists; split; [exact Hr3|exact Hp3]).
  destruct (Z.rem (Z.of_nat k) NUM_ITERATIONS_BETWEEN_EXP_FIXES =? 0); [|apply wp_ok; exact Hgood].
  apply wp_bind. eapply wp_max; [exact Hr3|lia|]. intros mx. cbv zeta.
  match goal with |- context [if ?c <? 0 then _ else _] => set (e := c) end.
  destruct (e <? 0); [|apply wp_ok; exact Hgood].
  apply wp_bind. eapply wp_ldexp_all; [exact Hr3|lia|]. intros p4 Hr4. apply wp_ok.
  do 2 eexists. split; [exact Hr4|]. intros x. cbn [snd]. rewrite bpow_plus.
  transitivity (peval (step_m m a k (Bf b k)) (int_a a (- Bf b k)) (S k) x * bpow radix2 (0 - e))%R.
  - unfold peval. rewrite <- rsum_scal_r. apply rsum_ext. intros i _. ring.
  - rewrite Hp3. ring.
Qed.
End Prog.

Section Main.
Context {frexp : xr -> Z} (E : env (Xnum frexp)).
Notation XN := (Xnum frexp).

Lemma bpow_ln e : ln (bpow radix2 e) = (IZR e * ln 2)%R.
Proof.
  rewrite bpow_powerRZ. simpl IZR. rewrite <- (exp_ln 2) at 1 by lra.
  rewrite powerRZ_Rpower by apply exp_pos. unfold Rpower. rewrite !ln_exp. reflexivity.
Qed.

Lemma mns_b_total (b : list R) : valid_boundary b -> long_double_ok E ->
  exists p, is_prob (length b) (noncrossing_b b) p /\ ecdf1_mns2016_b E (map Fin b) = Ok (Fin p).
Proof.
  intros HV HLD. set (n := length b). exists (INR (fact n) * h b n 1)%R.
  assert (HP : is_prob n (noncrossing_b b) (INR (fact n) * h b n 1)) by (apply prob_is_D_b; auto).
  split; auto. apply is_prob_range in HP.
  assert (Hf : (0 < INR (fact n))%R) by apply INR_fact_lt_0.
  assert (Hh : (0 <= h b n 1)%R).
  { destruct (Rle_or_lt 0 (h b n 1)); auto. assert (INR (fact n) * h b n 1 < 0)%R by nra. lra. }
  enough (HT : total (ecdf1_mns2016_b E (map Fin b)) (fun r => r = Fin (INR (fact n) * h b n 1))).
  { apply total_iff in HT. destruct HT as (a & -> & ->). reflexivity. }
  destruct HLD as [frexpl HLD']. unfold total, ecdf1_mns2016_b. rewrite HLD'. unfold mns_b. rewrite size_BX. fold n.
  replace (Z.of_nat n) with (size b) at 1 by reflexivity. rewrite check_valid by auto. cbn [bind].
  unfold ptm_make. apply wp_bind. apply wp_bind, wp_cassert_true; [apply Z.leb_le; lia|]. apply wp_ok.
  assert (Hr0 : rep n (@mkPtm (Xnum frexpl) 0 (vec (Z.of_nat n + 1 + 1) n0) (vec (Z.of_nat n + 1 + 1) n0)) 0 (fun _ => 0%R) (fun _ => 0%R)).
  { unfold rep. cbn [degree mult addc]. rewrite !size_vec. split; [reflexivity|]. split; [lia|]. split; [lia|].
    intros i Hi. rewrite !get_vec by lia. split; reflexivity. }
  apply wp_bind. change (@n1 (ld (@exact_ld frexp frexpl))) with (Fin 1). eapply wp_set_mult0; [exact Hr0|lia|]. intros p0 Hp0.
  apply wp_bind. apply wp_for with (P := fun j s => good n b (Z.to_nat j) s).
  - do 2 eexists. split; [exact Hp0|]. intros x. rewrite h_0. unfold peval. rewrite rsum_S. simpl. ring.
  - intros j s Hj Hg. replace (Z.to_nat (j + 1)) with (S (Z.to_nat j)) by lia.
    replace j with (Z.of_nat (Z.to_nat j)) at 1 by lia. apply wp_mns_step; auto. lia.
  - replace (Z.to_nat (Z.max 0 (Z.of_nat n))) with n by lia.
    intros [p delta] (m & a & Hr & Hp). simpl in Hr, Hp.
    apply wp_bind. eapply wp_evaluate; [exact Hr|lia|]. apply wp_ok. rewrite Hp.
    cbn [n_log n_exp n_sub n_add n_mul n_of_Z n_lgamma Xnum ld narrow exact_ld]. unfold xlgamma.
    destruct (Z.leb_spec (Z.of_nat n + 1) 0); [lia|].
    replace (Z.to_nat (Z.of_nat n + 1 - 1)) with n by lia.
    assert (H2 : xlog (Fin 2) = Fin (ln 2)) by (unfold xlog; rewrite Rcompare_Gt by lra; reflexivity).
    rewrite H2. cbn [xmul]. pose proof (bpow_gt_0 radix2 delta) as Hbp.
    destruct (Rle_lt_or_eq_dec 0 (h b n 1) Hh) as [Hpos|Hz].
    + assert (Hx : xlog (Fin (h b n 1 * bpow radix2 delta)) = Fin (ln (h b n 1) + IZR delta * ln 2)).
      { unfold xlog. rewrite Rcompare_Gt by nra. rewrite ln_mult by auto. rewrite bpow_ln. reflexivity. }
      rewrite Hx. cbn [xadd xsub xexp]. f_equal.
      replace (ln (INR (fact n)) + (ln (h b n 1) + IZR delta * ln 2) - IZR delta * ln 2)%R
        with (ln (INR (fact n)) + ln (h b n 1))%R by ring.
      rewrite exp_plus, !exp_ln by auto. reflexivity.
    + rewrite <- Hz. assert (Hx : xlog (Fin (0 * bpow radix2 delta)) = NInf).
      { unfold xlog. rewrite Rmult_0_l, Rcompare_Eq by auto. reflexivity. }
      rewrite Hx. simpl. f_equal. ring.
Qed.

Lemma mns_B_reflects (B : list R) : valid_boundary B ->
  ecdf1_mns2016_B E (map Fin B) = ecdf1_mns2016_b E (map Fin (reflect B)).
Proof.
  intros HV. unfold ecdf1_mns2016_B. rewrite size_BX.
  replace (Z.of_nat (length B)) with (size B) at 1 by reflexivity. rewrite check_valid by auto. cbn [bind].
  set (n := length B).
  assert (HT : total (for_ 0 (Z.of_nat n) (vec (Z.of_nat n) n0) (fun i st =>
             x <- rd (map Fin B : list (car XN)) (Z.of_nat n - 1 - i) ;; wr st i (n_sub n1 x)))
     (fun st => st = map Fin (reflect B))).
  { apply wp_for with (P := fun k st => @size (car XN) st = Z.of_nat n /\
      forall i, 0 <= i < k -> @get (car XN) (Fin 0) st i = Fin (1 - nth (n - 1 - Z.to_nat i) B 0%R)).
    - split; [rewrite size_vec; lia|lia].
    - intros k st Hk [Hs Hg]. apply wp_bind. apply wp_rd_B; [fold n; lia|]. apply wp_wr; [lia|].
      rewrite size_upd. split; auto. intros i Hi. rewrite get_upd by lia.
      destruct (Z.eqb_spec k i) as [->|]; [|apply Hg; lia].
      simpl n_sub. unfold Bf. do 4 f_equal. lia.
    - intros st [Hs Hg]. apply list_ext_get with (d := Fin 0 : car XN).
      + rewrite Hs. unfold size. rewrite map_length, reflect_length. reflexivity.
      + intros i Hi. rewrite Hg by lia. unfold get.
        change (car XN) with xr.
        rewrite (nth_indep (map Fin (reflect B)) (Fin 0) (Fin (1 - 0)%R)) by (rewrite map_length, reflect_length; fold n; lia).
        rewrite map_nth. f_equal. unfold reflect.
        change (1 - 0)%R with ((fun x => 1 - x)%R 0%R). rewrite map_nth. f_equal.
        rewrite rev_nth by (fold n; lia). fold n. f_equal. lia. }
  apply total_iff in HT. destruct HT as (a & -> & ->). reflexivity.
Qed.

Lemma mns_B_total (B : list R) : valid_boundary B -> long_double_ok E ->
  exists p, is_prob (length B) (noncrossing_B B) p /\ ecdf1_mns2016_B E (map Fin B) = Ok (Fin p).
Proof.
  intros HV HLD. rewrite mns_B_reflects by auto.
  destruct (mns_b_total (reflect B)) as (p & Hp & Heq); [apply valid_reflect; auto|exact HLD|].
  rewrite reflect_length in Hp. exists p. split; [apply prob_B_reflect; exact Hp|exact Heq].
Qed.
End Main.
