(** * SafeMns: ecdf1_mns2016 returns a value or a validation error, for every floating-point type. *)
From Coq Require Import ZArith List Bool Lia String.
From Verif Require Import Base Num Hoare Common Ecdf1Mns SafeEcdf2 SafeNew.
Import List.
Local Open Scope Z_scope.

Section SafeMns.
Context {N : num} (E : env N) {F : num}.
Notation T := (car F).
Context {thr : exn -> Prop} {abt : Prop}.
Notation WP := (wp thr abt).
Variable n : Z.

Definition p_shape (k : Z) (p : ptm F) : Prop :=
  degree p = k /\ size (mult p) = n + 2 /\ size (addc p) = n + 2.

Lemma sh_check_degree k p d (Q : unit -> Prop) : p_shape k p -> 0 <= d <= k -> Q tt -> WP (check_degree E p d) Q.
Proof.
  intros (Hd & _) Hk HQ. unfold check_degree. rewrite Hd.
  apply wp_bind, wp_cassert_true; [apply Z.leb_le; lia|]. apply wp_cassert_true; [apply Z.leb_le; lia|]. exact HQ.
Qed.

Lemma sh_integrate k p (Q : ptm F -> Prop) : p_shape k p -> 0 <= k <= n ->
  (forall p', p_shape (k + 1) p' -> Q p') -> WP (integrate p) Q.
Proof.
  intros (Hd & Hm & Ha) Hk HQ. unfold integrate. rewrite Hd. apply wp_bind.
  apply wp_for_down with (P := fun _ ma => size (fst ma) = n + 2 /\ size (snd ma) = n + 2).
  - auto.
  - intros j [m a] Hj [H1 H2]. cbn [fst snd] in *.
    apply wp_bind, wp_rd_any; [lia|]. intros x _. apply wp_bind, wp_wr; [lia|].
    apply wp_bind, wp_rd_any; [lia|]. intros y _. apply wp_bind, wp_wr; [lia|]. apply wp_ok.
    cbn [fst snd]. rewrite !size_upd. auto.
  - intros [m a] [H1 H2]. cbn [fst snd] in *.
    apply wp_bind, wp_wr; [lia|]. apply wp_bind, wp_wr; [rewrite size_upd; lia|].
    apply wp_bind, wp_wr; [lia|]. apply wp_ok, HQ. unfold p_shape. cbn [degree mult addc]. rewrite !size_upd. auto.
Qed.

Lemma sh_set_add k p d v (Q : ptm F -> Prop) : p_shape k p -> 0 <= d <= k -> k <= n + 1 ->
  (forall p', p_shape k p' -> Q p') -> WP (set_additive_coefficient E p d v) Q.
Proof.
  intros Hs Hd Hk HQ. unfold set_additive_coefficient. apply wp_bind. eapply sh_check_degree; eauto.
  destruct Hs as (Hd' & Hm & Ha). apply wp_bind, wp_wr; [lia|]. apply wp_ok, HQ.
  unfold p_shape. cbn [degree mult addc]. rewrite size_upd. auto.
Qed.
Lemma sh_set_mult k p d v (Q : ptm F -> Prop) : p_shape k p -> 0 <= d <= k -> k <= n + 1 ->
  (forall p', p_shape k p' -> Q p') -> WP (set_multiplicative_coefficient E p d v) Q.
Proof.
  intros Hs Hd Hk HQ. unfold set_multiplicative_coefficient. apply wp_bind. eapply sh_check_degree; eauto.
  destruct Hs as (Hd' & Hm & Ha). apply wp_bind, wp_wr; [lia|]. apply wp_ok, HQ.
  unfold p_shape. cbn [degree mult addc]. rewrite size_upd. auto.
Qed.
Lemma sh_get_mult k p d (Q : T -> Prop) : p_shape k p -> 0 <= d <= k -> k <= n + 1 ->
  (forall x, Q x) -> WP (get_multiplicative_coefficient E p d) Q.
Proof.
  intros Hs Hd Hk HQ. unfold get_multiplicative_coefficient. apply wp_bind. eapply sh_check_degree; eauto.
  destruct Hs as (Hd' & Hm & Ha). apply wp_rd_any; [lia|]. auto.
Qed.

Lemma sh_evaluate k p x (Q : T -> Prop) : p_shape k p -> 0 <= k <= n + 1 -> (forall y, Q y) -> WP (evaluate p x) Q.
Proof.
  intros (Hd & Hm & Ha) Hk HQ. unfold evaluate. rewrite Hd.
  apply wp_for with (P := fun _ _ => True); auto.
  intros j r Hj _. apply wp_bind, wp_rd_any; [lia|]. intros ? _. apply wp_bind, wp_rd_any; [lia|]. intros ? _.
  apply wp_ok. exact I.
Qed.

Lemma sh_ldexp k p e (Q : ptm F -> Prop) : p_shape k p -> 0 <= k <= n + 1 ->
  (forall p', p_shape k p' -> Q p') -> WP (ldexp_all_multiplicative_coefficients p e) Q.
Proof.
  intros (Hd & Hm & Ha) Hk HQ. unfold ldexp_all_multiplicative_coefficients. rewrite Hd. apply wp_bind.
  apply wp_for with (P := fun _ m => size m = n + 2); auto.
  - intros i m Hi Hs. apply wp_bind, wp_rd_any; [lia|]. intros x _. apply wp_wr; [lia|]. rewrite size_upd. exact Hs.
  - intros m Hs. apply wp_ok, HQ. unfold p_shape. cbn [degree mult addc]. auto.
Qed.

Lemma sh_max k p (Q : T -> Prop) : p_shape k p -> 1 <= k <= n + 1 -> (forall x, Q x) ->
  WP (maximum_multiplicative_coefficient E p) Q.
Proof.
  intros Hs Hk HQ. unfold maximum_multiplicative_coefficient. pose proof Hs as (Hd & _). rewrite Hd.
  apply wp_bind, wp_cassert_true; [apply Z.leb_le; lia|].
  apply wp_bind. eapply sh_get_mult; eauto; [lia|lia|]. intros x0.
  apply wp_for with (P := fun _ _ => True); auto.
  intros j t Hj _. apply wp_bind. eapply sh_get_mult; eauto; [lia|lia|]. intros y. apply wp_ok. exact I.
Qed.

End SafeMns.

Section SafeMnsStep.
Context {N : num} (E : env N) (LD : long_double N).
Notation T := (car N).
Context {thr : exn -> Prop} {abt : Prop}.
Notation WP := (wp thr abt).
Variable n : Z.

Lemma sh_mns_step (b : list T) k s : size b = n -> 0 <= k < n -> p_shape n k (fst s) ->
  WP (mns_step E LD b k s) (fun s' => p_shape n (k + 1) (fst s')).
Proof.
  intros Hb Hk Hs. destruct s as [p delta]. cbn [fst] in Hs. unfold mns_step.
  apply wp_bind. eapply sh_integrate; eauto; [lia|]. intros p1 H1.
  apply wp_bind, wp_rd_any; [lia|]. intros bi _.
  apply wp_bind. eapply sh_set_add; eauto; [lia|lia|]. intros p2 H2.
  apply wp_bind. eapply sh_evaluate; eauto; [lia|]. intros v.
  apply wp_bind. eapply sh_set_mult; eauto; [lia|lia|]. intros p3 H3.
  destruct (Z.rem k NUM_ITERATIONS_BETWEEN_EXP_FIXES =? 0); [|apply wp_ok; exact H3].
  apply wp_bind. eapply sh_max; eauto; [lia|]. intros mx.
  destruct (extract_exponent mx <? 0); [|apply wp_ok; exact H3].
  apply wp_bind. apply sh_ldexp with (n := n) (k := k + 1); [exact H3|lia|]. intros p4 H4. apply wp_ok. exact H4.
Qed.
End SafeMnsStep.

Section Main.
Context {N : num} (E : env N).
Notation T := (car N).

Lemma mns_b_ok (b : list T) : check_boundary_vector "b" (size b) b = Ok tt ->
  exists r, ecdf1_mns2016_b E b = Ok r.
Proof.
  intros Hc. enough (HT : total (ecdf1_mns2016_b E b) (fun _ => True)).
  { apply total_iff in HT. destruct HT as (r & -> & _). eauto. }
  pose proof (size_nonneg b) as Hn.
  unfold total, ecdf1_mns2016_b, mns_b. rewrite Hc. cbn [bind].
  apply wp_bind. unfold ptm_make. apply wp_bind, wp_cassert_true; [apply Z.leb_le; lia|]. apply wp_ok.
  apply wp_bind. apply sh_set_mult with (n := size b) (k := 0); try lia.
  { unfold p_shape. cbn [degree mult addc]. rewrite !size_vec. lia. }
  intros p0 H0. apply wp_bind. apply wp_for with (P := fun k s => p_shape (size b) k (fst s)); auto.
  - intros k s Hk Hs. apply sh_mns_step; auto.
  - rewrite Z.max_r by lia. intros [p delta] Hs. cbn [fst] in Hs.
    apply wp_bind. eapply sh_evaluate; eauto; [lia|]. intros y. apply wp_ok. exact I.
Qed.

Lemma mns_b_total_any (b : list T) :
  (exists r, ecdf1_mns2016_b E b = Ok r) \/ (exists s, ecdf1_mns2016_b E b = Throw (RuntimeError s)).
Proof.
  destruct (check_cases "b" (size b) b) as [[Hc _]|[m Hc]]; [left; apply mns_b_ok; auto|].
  right. exists m. unfold ecdf1_mns2016_b, mns_b. rewrite Hc. reflexivity.
Qed.

Lemma mns_B_eq (B : list T) : ecdf1_mns2016_B E B =
  (do check_boundary_vector "B" (size B) B ;; ecdf1_mns2016_b E (reflected B)).
Proof.
  unfold ecdf1_mns2016_B. destruct (check_boundary_vector "B" (size B) B); cbn [bind]; auto.
  rewrite reflect_loop by reflexivity. reflexivity.
Qed.

Lemma mns_B_total_any (B : list T) :
  (exists r, ecdf1_mns2016_B E B = Ok r) \/ (exists s, ecdf1_mns2016_B E B = Throw (RuntimeError s)).
Proof.
  rewrite mns_B_eq. destruct (check_cases "B" (size B) B) as [[Hc _]|[m Hc]]; rewrite Hc; cbn [bind]; [|eauto].
  apply mns_b_total_any.
Qed.
End Main.
