(** * TestProb: the probabilities of the test suite's boundaries, and their texts. *)
From Coquelicot Require Import Coquelicot.
From Coq Require Import ZArith Reals List Bool Lia Lra String.
From Verif Require Import Spec RatProb StringSpec ShowSpec ShowMore ShowFacts ShowCli TestSpec.
Import List. Import ListNotations.
Local Open Scope R_scope.

Ltac nums := repeat (apply f_equal2; [unfold grid, over; lra|]); reflexivity.

Lemma grid_between M zb zB lo hi : (0 < M)%Z -> increasing 0 M zb = true -> increasing 0 M zB = true -> length zb = length zB ->
  ((lo <=? grid_count M zb zB) && (grid_count M zb zB <=? hi) = true)%Z ->
  exists p, is_noncrossing_probability (map (grid M) zb) (map (grid M) zB) p /\
    IZR lo / IZR M ^ length zb <= p <= IZR hi / IZR M ^ length zb.
Proof.
  intros HM Hb HB HL H. exists (IZR (grid_count M zb zB) / IZR M ^ length zb). split; [apply grid_prob; auto|].
  apply andb_true_iff in H. destruct H as [H1 H2]. apply Z.leb_le, IZR_le in H1. apply Z.leb_le, IZR_le in H2.
  assert (0 < / IZR M ^ length zb) by (apply Rinv_0_lt_compat, pow_lt, (IZR_lt 0), HM).
  split; apply Rmult_le_compat_r; lra.
Qed.

Definition near (t : test_file) (lo hi : R) : Prop :=
  exists p, is_noncrossing_probability (lower_of t) (upper_of t) p /\ lo <= p <= hi.

Lemma near_bounds_0_1 : near bounds_0_1 1 1.
Proof.
  destruct (grid_between 1 [0; 0; 0] [1; 1; 1] 1 1)%Z as (p & HP & HB); try reflexivity.
  exists p. split.
  - replace (lower_of bounds_0_1) with (map (grid 1) [0; 0; 0]%Z) by (cbn; nums).
    replace (upper_of bounds_0_1) with (map (grid 1) [1; 1; 1]%Z) by (cbn; nums). exact HP.
  - simpl in HB. lra.
Qed.
Lemma near_bounds_0 : near bounds_0 1 1.
Proof. exact near_bounds_0_1. Qed.
Lemma near_bounds__1 : near bounds__1 1 1.
Proof. exact near_bounds_0_1. Qed.
Lemma near_bounds2 : near bounds2 (3/4) (3/4).
Proof.
  destruct (grid_between 10 [0; 0] [5; 10] 75 75)%Z as (p & HP & HB); try reflexivity.
  exists p. split.
  - replace (lower_of bounds2) with (map (grid 10) [0; 0]%Z) by (cbn; nums).
    replace (upper_of bounds2) with (map (grid 10) [5; 10]%Z) by (cbn; nums). exact HP.
  - simpl in HB. lra.
Qed.
Lemma near_bounds8 : near bounds8 (84052878/100000000) (84052878/100000000).
Proof.
  destruct (grid_between 10 [0; 0; 1; 2; 3; 4; 5; 6] [5; 6; 7; 8; 9; 10; 10; 10] 84052878 84052878)%Z as (p & HP & HB); try reflexivity.
  exists p. split.
  - replace (lower_of bounds8) with (map (grid 10) [0; 0; 1; 2; 3; 4; 5; 6]%Z) by (cbn; nums).
    replace (upper_of bounds8) with (map (grid 10) [5; 6; 7; 8; 9; 10; 10; 10]%Z) by (cbn; nums). exact HP.
  - simpl in HB. lra.
Qed.

Lemma digits_12 : IZR 10000000000000 ^ 10 = IZR (10 ^ 120) * 10000000000 /\ IZR 1000000000000 ^ 10 = IZR (10 ^ 110) * 10000000000.
Proof. rewrite !pow_IZR, <- !mult_IZR. split; apply f_equal; vm_compute; reflexivity. Qed.
Lemma cut n d p M lo hi : M = IZR (10 ^ n) * d -> (0 <= n)%Z -> 0 < d -> IZR (lo * 10 ^ n) / M <= p <= IZR (hi * 10 ^ n) / M -> IZR lo / d <= p <= IZR hi / d.
Proof.
  intros -> Hn Hd. assert (0 < IZR (10 ^ n)) by (apply (IZR_lt 0), Z.pow_pos_nonneg; lia). rewrite !mult_IZR.
  replace (IZR lo * IZR (10 ^ n) / (IZR (10 ^ n) * d)) with (IZR lo / d) by (field; lra).
  replace (IZR hi * IZR (10 ^ n) / (IZR (10 ^ n) * d)) with (IZR hi / d) by (field; lra). auto.
Qed.
Lemma near_cksplus : near bounds_cksplus_10 (6089242114/10000000000) (6089242115/10000000000).
Proof.
  destruct (grid_between 10000000000000
    [104807417938; 545286199977; 1158252780300; 1875622966470; 2673180986870; 3542159288730; 4482691676160; 5503961113260; 6631522766930; 7943282347240]
    (repeat 10000000000000 10) (6089242114 * 10 ^ 120) (6089242115 * 10 ^ 120))%Z as (p & HP & HB);
    try reflexivity; [vm_compute; reflexivity..|].
  exists p. split.
  - replace (upper_of bounds_cksplus_10) with (map (grid 10000000000000) (repeat 10000000000000 10)%Z) by (cbn; nums). exact HP.
  - apply (cut 120 10000000000 _ _ _ _ (proj1 digits_12)) in HB; [exact HB|lia|lra].
Qed.
Lemma near_cksminus : near bounds_cksminus_10 (6089242114/10000000000) (6089242115/10000000000).
Proof.
  destruct (grid_between 1000000000000 (repeat 0 10)
    [205671765276; 336847723307; 449603888674; 551730832384; 645784071127; 732681901313; 812437703353; 884174721970; 945471380002; 989519258206]
    (6089242114 * 10 ^ 110) (6089242115 * 10 ^ 110))%Z as (p & HP & HB);
    try reflexivity; [vm_compute; reflexivity..|].
  exists p. split.
  - replace (lower_of bounds_cksminus_10) with (map (grid 1000000000000) (repeat 0 10)%Z) by (cbn; nums). exact HP.
  - apply (cut 110 10000000000 _ _ _ _ (proj2 digits_12)) in HB; [exact HB|lia|lra].
Qed.

(** ** Texts of numbers close to six given digits *)
Lemma printed_digits v s d : Rabs (v - IZR d / 1000000) < 5/10000000 -> (100001 <= d < 1000000)%Z -> printed v s -> s = general_of d (-1).
Proof.
  intros H Hd P. apply Rabs_def2 in H.
  assert (R : 100001 <= IZR d <= 999999) by (split; apply IZR_le; lia).
  assert (V : 1/10 <= v /\ v < 1) by (split; lra).
  apply (printed_unique v); [lra|exact P|]. apply (printed_pos v d (-1)); [lra| |apply general_of_ok; lia].
  apply six_within; [rewrite Rabs_pos_eq by lra; simpl; lra| |lia].
  change (5 - -1)%Z with 6%Z. rewrite Rabs_pos_eq, <- power_nat by lra || lia. change (10 ^ 6)%Z with 1000000%Z.
  assert (A : Rabs (v * 1000000 - IZR d) < 1/2) by (apply Rabs_def1; lra).
  split; [lra|]. intros E. lra.
Qed.

(** Whatever is within 10^-7 of the probability is printed as the expected text. *)
Definition prints_as (t : test_file) (out : string) : Prop :=
  exists p, is_noncrossing_probability (lower_of t) (upper_of t) p /\
    forall v s, Rabs (v - p) <= 1/10000000 -> printed v s -> s = out.
Lemma near_text t d : (100001 <= d < 1000000)%Z -> near t (IZR d / 1000000 - 35/100000000) (IZR d / 1000000 + 35/100000000) ->
  prints_as t (general_of d (-1)).
Proof.
  intros Hd (p & HP & HB). exists p. split; [exact HP|]. intros v s Hv Ps. apply (printed_digits v); [|exact Hd|exact Ps].
  apply Rabs_le_between in Hv. apply Rabs_def1; lra.
Qed.
Lemma near_one t : near t 1 1 -> prints_as t "1".
Proof.
  intros (p & HP & HB). exists p. split; [exact HP|]. intros v s Hv Ps. apply (printed_one v); [|exact Ps].
  apply Rabs_le_between in Hv. lra.
Qed.
Lemma near_weaken t lo hi lo' hi' : near t lo hi -> lo' <= lo -> hi <= hi' -> near t lo' hi'.
Proof. intros (p & HP & HB) H1 H2. exists p. split; [exact HP|lra]. Qed.

Lemma text_bounds2 : prints_as bounds2 "0.75".
Proof. apply (near_text bounds2 750000); [lia|]. eapply near_weaken; [exact near_bounds2|lra|lra]. Qed.
Lemma text_bounds8 : prints_as bounds8 "0.840529".
Proof. apply (near_text bounds8 840529); [lia|]. eapply near_weaken; [exact near_bounds8|lra|lra]. Qed.
Lemma text_cksplus : prints_as bounds_cksplus_10 "0.608924".
Proof. apply (near_text bounds_cksplus_10 608924); [lia|]. eapply near_weaken; [exact near_cksplus|lra|lra]. Qed.
Lemma text_cksminus : prints_as bounds_cksminus_10 "0.608924".
Proof. apply (near_text bounds_cksminus_10 608924); [lia|]. eapply near_weaken; [exact near_cksminus|lra|lra]. Qed.
Lemma text_ones : prints_as bounds_0_1 "1" /\ prints_as bounds_0 "1" /\ prints_as bounds__1 "1".
Proof. exact (conj (near_one _ near_bounds_0_1) (conj (near_one _ near_bounds_0) (near_one _ near_bounds__1))). Qed.
