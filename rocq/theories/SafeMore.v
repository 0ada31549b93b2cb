(** * SafeMore: packaging for the property files PropsSafe.v and PropsComponents.v. *)
From Coquelicot Require Import Coquelicot.
From Flocq Require Import Core.Raux.
From Coq Require Import ZArith Reals List Bool Lia Lra String Sorted.
From Verif Require Import Base Num Hoare XReal Common PoissonPmf FFTConv Ecdf2 Ecdf1New Ecdf1Mns.
From Verif Require Import XFft Dft SafeFft SafeEcdf2 SafeNew SafeMns ComponentFacts ExactEnv Cases ExactMore.
Import List. Import ListNotations.
Local Open Scope Z_scope.

(** no undefined behaviour and no endless loop *)
Definition well_defined {A} (o : outcome A) : Prop := (forall s, o <> Undef s) /\ o <> Hang.

Lemma safe_well_defined {A} (o : outcome A) Q : safe o Q -> well_defined o.
Proof. destruct o; simpl; unfold well_defined; intros H; split; intros; try congruence; contradiction. Qed.

Lemma ecdf2_well_defined (N : num) (E : env N) b B use_fft :
  strict_weak_order_on (map (fun x => mkBound x bSTEP) b ++ map (fun x => mkBound x BSTEP) B) = true ->
  sort_ok E -> (use_fft = true -> fft_lengths E) -> well_defined (ecdf2 E b B use_fft).
Proof. intros. eapply safe_well_defined, ecdf2_safe; auto. Qed.

Lemma new_well_defined (N : num) (E : env N) (v : list (car N)) k : fft_lengths E -> 1 <= Z.of_nat (length v) ->
  jump_size_for (N := N) (Z.of_nat (length v)) = Ok k -> 1 <= k ->
  well_defined (ecdf1_new_B E v) /\ well_defined (ecdf1_new_b E v).
Proof.
  intros HF Hn Hk H1. split; eapply safe_well_defined; [eapply new_B_safe|eapply new_b_safe]; eauto.
Qed.

Lemma mns_well_defined (N : num) (E : env N) (v : list (car N)) :
  ((exists r, ecdf1_mns2016_b E v = Ok r) \/ (exists s, ecdf1_mns2016_b E v = Throw (RuntimeError s))) /\
  ((exists r, ecdf1_mns2016_B E v = Ok r) \/ (exists s, ecdf1_mns2016_B E v = Throw (RuntimeError s))).
Proof. split; [apply mns_b_total_any|apply mns_B_total_any]. Qed.

(** the exact environment keeps the length promises *)
Lemma exact_env_lengths frexp a m : fft_lengths (exact_env frexp a m).
Proof.
  split.
  - intros x. simpl fft_r2c. unfold r2c. rewrite map_length, seq_length. reflexivity.
  - intros n z. simpl fft_c2r. unfold c2r. rewrite map_length, seq_length. reflexivity.
Qed.

Lemma guard_hole : forall (N : num) (E : env N) (v : list (car N)), length v = 1025%nat ->
  fft_convolve_same_size E (fftconv_make E 1024) 1025 v 0 v 0 v 0 = Undef "write outside an array".
Proof.
  intros N E v Hv. apply (fft_guard_overrun E 1 1025 v v v); try lia. unfold size. rewrite Hv. lia.
Qed.

Lemma guard_throws (N : num) (E : env N) m sz (a b out : list (car N)) oa ob oo : 0 <= m -> m + 2047 < sz ->
  exists s, fft_convolve_same_size E (fftconv_make E m) sz a oa b ob out oo = Throw (RuntimeError s).
Proof. intros Hm H. eapply fft_guard_throws; [apply fft_shape_make; auto|auto]. Qed.

Lemma compute_array_errors (N : num) (E : env N) (g : pmfgen N) k lambda mk :
  pmfgen_make E mk = Ok g -> 0 < mk -> 0 <= k <= mk ->
  ((exists e, compute_array E g k lambda = Throw e) <-> n_lt lambda n0 = true) /\
  (n_lt lambda n0 = false -> exists g', compute_array E g k lambda = Ok g').
Proof.
  intros Hg Hm Hk. apply compute_array_throws with (mk := mk); auto.
  assert (HT : total (pmfgen_make E mk) (pg_shape mk)) by (apply sh_pmfgen_make; auto).
  rewrite Hg in HT. exact HT.
Qed.

(** ** cases *)
Lemma case_order : strict_weak_order_on (N := Xnum some_frexp)
  (map (fun x => @mkBound (Xnum some_frexp) x bSTEP) (map Fin case_b) ++ map (fun x => @mkBound (Xnum some_frexp) x BSTEP) (map Fin ones2)) = true.
Proof.
  unfold case_b, ones2, strict_weak_order_on. cbn [map app forallb]. unfold bound_lt. cbn [location n_lt Xnum xlt].
  assert (A : forall x y : R, (x < y)%R -> Rlt_bool x y = true) by (intros; apply Rlt_bool_true; auto).
  assert (B : forall x y : R, (y <= x)%R -> Rlt_bool x y = false) by (intros; apply Rlt_bool_false; auto).
  rewrite (A 0%R (/2)%R), (A 0%R 1%R), (A (/2)%R 1%R), (B (/2)%R 0%R), (B 1%R 0%R), (B 1%R (/2)%R), (B 0%R 0%R), (B (/2)%R (/2)%R), (B 1%R 1%R) by lra.
  reflexivity.
Qed.
Lemma jump_two : jump_size_for (N := Xnum some_frexp) 2 = Ok 2.
Proof.
  unfold jump_size_for, n1. cbn [n_trunc n_add n_sqrt n_of_Z Xnum xsqrt]. rewrite Rlt_bool_false by lra. cbn [xadd xtrunc].
  replace (Ztrunc (sqrt 2 + 1)) with 2; [reflexivity|].
  assert (H1 : (1 <= sqrt 2)%R) by (rewrite <- sqrt_1 at 1; apply sqrt_le_1; lra).
  assert (H2 : (sqrt 2 < 2)%R) by (rewrite <- (sqrt_square 2) at 2 by lra; apply sqrt_lt_1; lra).
  symmetry. rewrite Ztrunc_floor by lra. apply Zfloor_imp. simpl. lra.
Qed.
Lemma case_convolve : exists d : list (car (Xnum some_frexp)),
  convolve_same_size (N := Xnum some_frexp) 2 (map Fin [1; 2]%R) 0 (map Fin [9; 3; 4]%R) 1 [NaN; NaN; Fin 8] 0 = Ok d /\
  holds_product [NaN; NaN; Fin 8%R] d 0 2 [1; 2]%R 0 [9; 3; 4]%R 1 /\
  truncated_product [1; 2]%R 0 [9; 3; 4]%R 1 1 = 10%R.
Proof.
  destruct (convolve_exact (frexp := some_frexp) [1; 2]%R [9; 3; 4]%R [NaN; NaN; Fin 8%R] 2 0 1 0) as (d & Hd & Hp); simpl; try lia.
  exists d. split; [exact Hd|]. split; [exact Hp|]. unfold truncated_product. simpl. lra.
Qed.
