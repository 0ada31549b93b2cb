(** * AccProd: rounding errors of one element of the spectrum product. *)
From Coquelicot Require Import Coquelicot.
From Flocq Require Import Core.Core IEEE754.BinarySingleNaN.
From Coq Require Import ZArith Reals List Bool Lia Lra.
From Verif Require Import Base Num FFTConv Binary64 Binary64Facts ErrBound B64Round.
Local Open Scope R_scope.

(** [fabs v x e]: a finite number within e of x *)
Definition fabs (v : f64) (x e : R) : Prop := is_finite v = true /\ Rabs (B2R v - x) <= e.

Lemma fabs_weaken v x e e' : e <= e' -> fabs v x e -> fabs v x e'.
Proof. intros He [F H]. split; [exact F|lra]. Qed.
Lemma fabs_abs v x e : fabs v x e -> Rabs (B2R v) <= Rabs x + e.
Proof. intros [_ H]. replace (B2R v) with ((B2R v - x) + x) by ring. eapply Rle_trans; [apply Rabs_triang|]. lra. Qed.

Lemma b60 : 1024 <= bpow radix2 60.
Proof. change 1024 with (bpow radix2 10). apply bpow_le. lia. Qed.

Lemma prod_err x y X Y ex ey : Rabs (x - X) <= ex -> Rabs (y - Y) <= ey ->
  Rabs (x * y - X * Y) <= ex * (Rabs Y + ey) + Rabs X * ey.
Proof.
  intros Hx Hy. replace (x * y - X * Y) with ((x - X) * y + X * (y - Y)) by ring.
  eapply Rle_trans; [apply Rabs_triang|]. rewrite !Rabs_mult.
  assert (Rabs y <= Rabs Y + ey).
  { replace y with (Y + (y - Y)) by ring. eapply Rle_trans; [apply Rabs_triang|]. lra. }
  apply Rplus_le_compat.
  - apply Rmult_le_compat; try apply Rabs_pos; assumption.
  - apply Rmult_le_compat_l; [apply Rabs_pos|assumption].
Qed.

Lemma fabs_mult (x y : f64) X Y ex ey a b : fabs x X ex -> fabs y Y ey -> Rabs X <= a -> Rabs Y <= b -> 
  (a + ex) * (b + ey) <= 1024 ->
  fabs (Bmult mode_NE x y) (X * Y) (ex * (b + ey) + a * ey + u64 * ((a + ex) * (b + ey)) + eta64).
Proof.
  intros Hx Hy Ha Hb Hbig. pose proof (fabs_abs _ _ _ Hx) as Ax. pose proof (fabs_abs _ _ _ Hy) as Ay.
  destruct Hx as [Fx Hx], Hy as [Fy Hy]. pose proof u64_pos as Hu. pose proof b60 as H60.
  pose proof (Rabs_pos X) as PX. pose proof (Rabs_pos Y) as PY. pose proof (Rabs_pos (B2R x)) as Px. pose proof (Rabs_pos (B2R y)) as Py.
  pose proof (Rle_trans _ _ _ (Rabs_pos _) Hx) as Pex. pose proof (Rle_trans _ _ _ (Rabs_pos _) Hy) as Pey.
  assert (Hxy : Rabs (B2R x * B2R y) <= (a + ex) * (b + ey)).
  { rewrite Rabs_mult. apply Rmult_le_compat; lra. }
  destruct (mult_err x y Fx Fy ltac:(lra)) as [Fz Hz]. split; [exact Fz|].
  pose proof (prod_err _ _ _ _ _ _ Hx Hy) as HP.
  replace (B2R (Bmult mode_NE x y) - X * Y) with ((B2R (Bmult mode_NE x y) - B2R x * B2R y) + (B2R x * B2R y - X * Y)) by ring.
  eapply Rle_trans; [apply Rabs_triang|].
  assert (u64 * Rabs (B2R x * B2R y) <= u64 * ((a + ex) * (b + ey))) by (apply Rmult_le_compat_l; lra).
  assert (ex * (Rabs Y + ey) <= ex * (b + ey)) by (apply Rmult_le_compat_l; lra).
  assert (Rabs X * ey <= a * ey) by (apply Rmult_le_compat_r; lra). lra.
Qed.

Lemma fabs_plus (x y : f64) X Y ex ey a : fabs x X ex -> fabs y Y ey -> Rabs X + Rabs Y + ex + ey <= a -> a <= 1024 ->
  fabs (Bplus mode_NE x y) (X + Y) (ex + ey + u64 * a).
Proof.
  intros Hx Hy Ha Hbig. pose proof (fabs_abs _ _ _ Hx) as Ax. pose proof (fabs_abs _ _ _ Hy) as Ay.
  destruct Hx as [Fx Hx], Hy as [Fy Hy]. pose proof u64_pos as Hu. pose proof b60 as H60.
  assert (Hs : Rabs (B2R x + B2R y) <= a) by (eapply Rle_trans; [apply Rabs_triang|]; lra).
  destruct (plus_err x y Fx Fy ltac:(lra)) as [Fz Hz]. split; [exact Fz|].
  replace (B2R (Bplus mode_NE x y) - (X + Y)) with ((B2R (Bplus mode_NE x y) - (B2R x + B2R y)) + ((B2R x - X) + (B2R y - Y))) by ring.
  eapply Rle_trans; [apply Rabs_triang|]. pose proof (Rabs_triang (B2R x - X) (B2R y - Y)).
  assert (u64 * Rabs (B2R x + B2R y) <= u64 * a) by (apply Rmult_le_compat_l; lra). lra.
Qed.

Lemma fabs_minus (x y : f64) X Y ex ey a : fabs x X ex -> fabs y Y ey -> Rabs X + Rabs Y + ex + ey <= a -> a <= 1024 ->
  fabs (Bminus mode_NE x y) (X - Y) (ex + ey + u64 * a).
Proof.
  intros Hx Hy Ha Hbig. pose proof (fabs_abs _ _ _ Hx) as Ax. pose proof (fabs_abs _ _ _ Hy) as Ay.
  destruct Hx as [Fx Hx], Hy as [Fy Hy]. pose proof u64_pos as Hu. pose proof b60 as H60.
  assert (Hs : Rabs (B2R x - B2R y) <= a).
  { unfold Rminus. eapply Rle_trans; [apply Rabs_triang|]. rewrite Rabs_Ropp. lra. }
  destruct (minus_err x y Fx Fy ltac:(lra)) as [Fz Hz]. split; [exact Fz|].
  replace (B2R (Bminus mode_NE x y) - (X - Y)) with ((B2R (Bminus mode_NE x y) - (B2R x - B2R y)) + ((B2R x - X) + (Y - B2R y))) by ring.
  eapply Rle_trans; [apply Rabs_triang|]. pose proof (Rabs_triang (B2R x - X) (Y - B2R y)).
  rewrite (Rabs_minus_sym Y) in H.
  assert (u64 * Rabs (B2R x - B2R y) <= u64 * a) by (apply Rmult_le_compat_l; lra). lra.
Qed.

(** the scale factor 1/size *)
Lemma inv_size (z : Z) : (1 <= z <= 2 ^ 33)%Z ->
  fabs (Bdiv mode_NE (b64_of_Z 1) (b64_of_Z z)) (/ IZR z) (2 * u64 * / IZR z) /\ eta64 <= u64 * / IZR z /\ 0 < / IZR z <= 1.
Proof.
  intros Hz. destruct (of_Z_ok z) as [Fz Vz]; [lia|]. destruct one_ok as [F1 V1].
  assert (H1 : 1 <= IZR z) by (apply IZR_le; lia).
  assert (Hi : 0 < / IZR z <= 1).
  { split; [apply Rinv_0_lt_compat; lra|]. rewrite <- Rinv_1. apply Rinv_le; lra. }
  assert (He : eta64 <= u64 * / IZR z).
  { apply Rle_trans with (u64 * bpow radix2 (-33)).
    - unfold eta64, u64. rewrite <- bpow_plus. apply bpow_le. lia.
    - apply Rmult_le_compat_l; [apply Rlt_le, u64_pos|]. change (bpow radix2 (-33)) with (/ IZR (2 ^ 33)).
      apply Rinv_le; [lra|]. apply IZR_le. lia. }
  split; [|auto].
  assert (Hq : B2R (b64_of_Z 1) / B2R (b64_of_Z z) = / IZR z) by (rewrite V1, Vz; unfold Rdiv; ring).
  destruct (div_err (b64_of_Z 1) (b64_of_Z z) F1) as [Fd Ed].
  { rewrite Vz. lra. } { rewrite Hq, Rabs_pos_eq by lra. pose proof b60. lra. }
  rewrite Hq, (Rabs_pos_eq (/ IZR z)) in Ed by lra. split; [exact Fd|]. lra.
Qed.

Section One.
Variables (c xr xi yr yi : f64) (i e Xr Xi Yr Yi : R).
Hypothesis Hi : 0 < i <= 1.
Hypothesis Heta : eta64 <= u64 * i.
Hypothesis Hue : u64 <= e.
Hypothesis He : e <= / 4096.
Hypothesis Hc : fabs c i (2 * u64 * i).
Hypothesis Hxr : fabs xr Xr (4 * e). Hypothesis Hxi : fabs xi Xi (4 * e).
Hypothesis Hyr : fabs yr Yr (4 * e). Hypothesis Hyi : fabs yi Yi (4 * e).
Hypothesis Bxr : Rabs Xr <= 3. Hypothesis Bxi : Rabs Xi <= 3.
Hypothesis Byr : Rabs Yr <= 3. Hypothesis Byi : Rabs Yi <= 3.

(** c * x, with x known up to 4 e *)
Lemma scaled (x : f64) X : fabs x X (4 * e) -> Rabs X <= 3 ->
  fabs (Bmult mode_NE c x) (i * X) (16 * e * i) /\ Rabs (i * X) <= 3 * i.
Proof.
  intros Hx HX. pose proof u64_pos as Hu.
  assert (Hii : Rabs i <= i) by (rewrite Rabs_pos_eq; lra).
  split; [|rewrite Rabs_mult, (Rabs_pos_eq i) by lra; pose proof (Rabs_pos X); nra].
  pose proof (fabs_mult c x i X _ _ i 3 Hc Hx Hii HX) as H.
  eapply fabs_weaken; [|apply H].
  - assert (E1 : u64 * i <= e * i) by (apply Rmult_le_compat_r; lra).
    assert (E0 : 0 <= u64 * i) by (apply Rmult_le_pos; lra).
    assert (E2 : u64 * i * e <= u64 * i * / 4096) by (apply Rmult_le_compat_l; lra).
    assert (E3 : u64 * (u64 * i) <= / 4096 * (u64 * i)) by (apply Rmult_le_compat_r; lra).
    assert (E4 : u64 * (u64 * i) * e <= / 4096 * (u64 * i) * / 4096).
    { apply Rmult_le_compat; try lra. apply Rmult_le_pos; lra. }
    replace (2 * u64 * i * (3 + 4 * e) + i * (4 * e) + u64 * ((i + 2 * u64 * i) * (3 + 4 * e)) + eta64)
      with (9 * (u64 * i) + 12 * (u64 * i * e) + 4 * (e * i) + 6 * (u64 * (u64 * i)) + 8 * (u64 * (u64 * i) * e) + eta64) by ring.
    lra.
  - assert (0 <= u64 * i <= / 4096) by (split; [apply Rmult_le_pos; lra|]; rewrite <- (Rmult_1_r (/ 4096)); apply Rmult_le_compat; lra).
    apply Rle_trans with (2 * 4); [apply Rmult_le_compat; lra|lra].
Qed.

Lemma scaled_prod (x y : f64) X Y : fabs x X (4 * e) -> Rabs X <= 3 -> fabs y Y (4 * e) -> Rabs Y <= 3 ->
  fabs (Bmult mode_NE (Bmult mode_NE c x) y) (i * (X * Y)) (72 * e * i) /\ Rabs (i * (X * Y)) <= 9 * i.
Proof.
  intros Hx HX Hy HY. destruct (scaled x X Hx HX) as [H1 H2]. pose proof u64_pos as Hu.
  assert (HXY : Rabs (i * (X * Y)) <= 9 * i).
  { rewrite <- Rmult_assoc, Rabs_mult. replace (9 * i) with (3 * i * 3) by ring. apply Rmult_le_compat; auto using Rabs_pos. }
  split; [|exact HXY].
  pose proof (fabs_mult _ y _ Y _ _ (3 * i) 3 H1 Hy H2 HY) as H.
  rewrite <- Rmult_assoc. eapply fabs_weaken; [|apply H].
  - assert (E1 : u64 * i <= e * i) by (apply Rmult_le_compat_r; lra).
    assert (E0 : 0 <= e * i) by (apply Rmult_le_pos; lra).
    assert (E2 : e * i * e <= e * i * / 4096) by (apply Rmult_le_compat_l; lra).
    assert (E3 : u64 * (e * i) <= / 4096 * (e * i)) by (apply Rmult_le_compat_r; lra).
    assert (E4 : u64 * (e * i) * e <= / 4096 * (e * i) * / 4096).
    { apply Rmult_le_compat; try lra. apply Rmult_le_pos; lra. }
    replace (16 * e * i * (3 + 4 * e) + 3 * i * (4 * e) + u64 * ((3 * i + 16 * e * i) * (3 + 4 * e)) + eta64)
      with (60 * (e * i) + 64 * (e * i * e) + 9 * (u64 * i) + 60 * (u64 * (e * i)) + 64 * (u64 * (e * i) * e) + eta64) by ring.
    lra.
  - assert (0 <= e * i <= / 4096) by (split; [apply Rmult_le_pos; lra|]; rewrite <- (Rmult_1_r (/ 4096)); apply Rmult_le_compat; lra).
    apply Rle_trans with (4 * 4); [apply Rmult_le_compat; lra|lra].
Qed.

Lemma one_re : fabs (Bminus mode_NE (Bmult mode_NE (Bmult mode_NE c xr) yr) (Bmult mode_NE (Bmult mode_NE c xi) yi))
  (i * (Xr * Yr - Xi * Yi)) (164 * e * i).
Proof.
  destruct (scaled_prod xr yr Xr Yr Hxr Bxr Hyr Byr) as [H1 A1]. destruct (scaled_prod xi yi Xi Yi Hxi Bxi Hyi Byi) as [H2 A2].
  rewrite Rmult_minus_distr_l. pose proof u64_pos as Hu.
  assert (E1 : u64 * i <= e * i) by (apply Rmult_le_compat_r; lra).
  assert (E0 : 0 <= e * i <= / 4096 * i) by (split; [apply Rmult_le_pos|apply Rmult_le_compat_r]; lra).
  eapply fabs_weaken; [|apply (fabs_minus _ _ _ _ _ _ (20 * i) H1 H2); lra]. lra.
Qed.
Lemma one_im : fabs (Bplus mode_NE (Bmult mode_NE (Bmult mode_NE c xr) yi) (Bmult mode_NE (Bmult mode_NE c xi) yr))
  (i * (Xr * Yi + Xi * Yr)) (164 * e * i).
Proof.
  destruct (scaled_prod xr yi Xr Yi Hxr Bxr Hyi Byi) as [H1 A1]. destruct (scaled_prod xi yr Xi Yr Hxi Bxi Hyr Byr) as [H2 A2].
  rewrite Rmult_plus_distr_l. pose proof u64_pos as Hu.
  assert (E1 : u64 * i <= e * i) by (apply Rmult_le_compat_r; lra).
  assert (E0 : 0 <= e * i <= / 4096 * i) by (split; [apply Rmult_le_pos|apply Rmult_le_compat_r]; lra).
  eapply fabs_weaken; [|apply (fabs_plus _ _ _ _ _ _ (20 * i) H1 H2); lra]. lra.
Qed.
End One.
