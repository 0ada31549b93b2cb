(** * ShowFacts: what the text written by an ostream says about the number. *)
From Flocq Require Import Core.Core.
From Coq Require Import ZArith Reals Bool Ascii String Lia Lra List.
From Verif Require Import Num StringSpec StrtodSpec ShowSpec.
Import ListNotations.
Local Open Scope string_scope.
Local Open Scope Z_scope.

(** ** Digits *)
Lemma slen_nonneg s : 0 <= slen s.
Proof. unfold slen. lia. Qed.
Lemma slen_cons c s : slen (String c s) = slen s + 1.
Proof. unfold slen. change (String.length (String c s)) with (S (String.length s)). lia. Qed.
Lemma slen_app s t : slen (s ++ t) = slen s + slen t.
Proof. induction s as [|c s IH]; [reflexivity|]. simpl (String c s ++ t). rewrite !slen_cons, IH. lia. Qed.
Lemma app_nil_s (s : string) : s ++ "" = s.
Proof. induction s as [|c s IH]; [reflexivity|]. simpl. rewrite IH. reflexivity. Qed.
Lemma app_assoc_s (s t u : string) : (s ++ t) ++ u = s ++ (t ++ u).
Proof. induction s as [|c s IH]; [reflexivity|]. simpl. rewrite IH. reflexivity. Qed.

Lemma dec_digit_range c d : dec_digit c d -> 0 <= d < 10.
Proof.
  intros [H0 H]. split; [exact H0|]. destruct (Z_lt_le_dec d 10) as [L|G]; [exact L|exfalso].
  assert (Hn : (10 <= Z.to_nat d)%nat) by lia. destruct (Z.to_nat d) as [|[|[|[|[|[|[|[|[|[|k]]]]]]]]]]; try lia.
  simpl in H. destruct k; discriminate.
Qed.
Lemma positional_range s v : positional dec_digit 10 s v -> 0 <= v < 10 ^ slen s.
Proof.
  induction 1 as [|c d s v Hd _ IH]; [unfold slen; simpl; lia|]. apply dec_digit_range in Hd.
  rewrite slen_cons, Z.pow_add_r, Z.pow_1_r by (pose proof (slen_nonneg s); lia). nia.
Qed.
Lemma positional_app_inv s t v : positional dec_digit 10 (s ++ t) v ->
  exists a b, positional dec_digit 10 s a /\ positional dec_digit 10 t b /\ v = a * 10 ^ slen t + b.
Proof.
  revert v. induction s as [|c s IH]; intros v H; simpl in H.
  - exists 0, v. split; [constructor|]. split; [exact H|lia].
  - inversion H as [|c' d s' v' Hd Hs]; subst. destruct (IH _ Hs) as (a & b & Ha & Hb & ->).
    exists (d * 10 ^ slen s + a), b. split; [constructor; assumption|]. split; [exact Hb|].
    rewrite slen_app, Z.pow_add_r by apply slen_nonneg. ring.
Qed.
Lemma digit_zero d : dec_digit "0" d -> d = 0.
Proof.
  intros H. pose proof (dec_digit_range _ _ H) as R. destruct H as [_ H].
  assert (d = 0 \/ d = 1 \/ d = 2 \/ d = 3 \/ d = 4 \/ d = 5 \/ d = 6 \/ d = 7 \/ d = 8 \/ d = 9) as C by lia.
  repeat destruct C as [C|C]; subst d; try reflexivity; simpl in H; discriminate.
Qed.
Lemma zero_digit c : dec_digit c 0 -> c = "0"%char.
Proof. intros [_ H]. simpl in H. congruence. Qed.
Lemma digit_inj c c' d : dec_digit c d -> dec_digit c' d -> c = c'.
Proof. intros [_ H] [_ H']. congruence. Qed.
Lemma positional_zeros s v : positional dec_digit 10 s v -> each (fun c => c = "0"%char) s -> v = 0.
Proof.
  induction 1 as [|c d s v Hd _ IH]; intros H; [reflexivity|]. inversion H; subst.
  apply digit_zero in Hd. rewrite Hd, (IH H3). lia.
Qed.
Lemma positional_zero s : positional dec_digit 10 s 0 -> each (fun c => c = "0"%char) s.
Proof.
  intros H. remember 0 as z eqn:Z0. induction H as [|c d s v Hd Hs IH]; [constructor|].
  pose proof (dec_digit_range _ _ Hd) as R. pose proof (positional_range _ _ Hs) as R'.
  assert (P : 0 < 10 ^ slen s) by (apply Z.pow_pos_nonneg; [lia|apply slen_nonneg]).
  assert (d = 0) by nia. assert (v = 0) by nia. subst. constructor; [apply zero_digit; exact Hd|apply IH; reflexivity].
Qed.
Lemma each_last (P : ascii -> Prop) s : each P s -> s <> "" -> exists r c, s = r ++ String c "" /\ P c.
Proof.
  unfold each. induction s as [|c s IH]; intros H N; [congruence|]. inversion H; subst.
  destruct s as [|c' s']; [exists "", c; split; [reflexivity|assumption]|].
  destruct IH as (r & c'' & E & Pc); [assumption|discriminate|]. exists (String c r), c''. rewrite E. split; [reflexivity|exact Pc].
Qed.

(** ** The text is a number, and which *)
Lemma fixed_mantissa m k s : 0 <= m -> 0 <= k -> fixed_text m k s ->
  exists v fr, mantissa dec_digit 10 s v fr /\ 0 <= fr <= k /\ m = v * 10 ^ (k - fr).
Proof.
  intros Hm Hk H. assert (P : 0 < 10 ^ k) by (apply Z.pow_pos_nonneg; lia).
  pose proof (Z.div_mod m (10 ^ k) ltac:(lia)) as DM.
  destruct H as [ip (Hp & Hn & _) H0|ip fp zs (Hp & Hn & _) Hf Hl Hz Hne _].
  - exists (m / 10 ^ k), 0. split; [apply man_int; assumption|]. split; [lia|]. rewrite Z.sub_0_r. lia.
  - destruct (positional_app_inv _ _ _ Hf) as (a & z & Ha & Hzs & E).
    rewrite (positional_zeros _ _ Hzs Hz) in E. rewrite slen_app in Hl.
    exists (m / 10 ^ k * 10 ^ slen fp + a), (slen fp). split.
    + apply man_point; [exact Hp|exact Ha|]. destruct ip; [congruence|discriminate].
    + pose proof (slen_nonneg fp). pose proof (slen_nonneg zs). split; [lia|].
      replace (k - slen fp) with (slen zs) by lia.
      rewrite Z.mul_add_distr_r, <- Z.mul_assoc, <- Z.pow_add_r by lia. rewrite Hl. lia.
Qed.

Lemma exponent_value X e : exponent_text X e -> exponent "e" (String "e" e) X.
Proof.
  intros [sg s Hs Hp Hl].
  assert (N : s <> "") by (intros ->; unfold slen in Hl; simpl in Hl; lia).
  destruct Hs as [[H0 ->]|[H0 ->]].
  - pose proof (exp_some "e" "e"%char "+" false s (Z.abs X) (or_introl eq_refl) sign_plus Hp N) as Q.
    cbv beta iota in Q. rewrite Z.abs_eq in Q by lia. exact Q.
  - pose proof (exp_some "e" "e"%char "-" true s (Z.abs X) (or_introl eq_refl) sign_minus Hp N) as Q.
    cbv beta iota in Q. rewrite Z.abs_neq, Z.opp_involutive in Q by lia. exact Q.
Qed.

Lemma power_nat k : 0 <= k -> IZR (10 ^ k) = powerRZ 10 k.
Proof.
  intros H. rewrite <- (Z2Nat.id k H) at 2. rewrite <- pow_powerRZ, <- (Z2Nat.id k H) at 1. symmetry.
  rewrite pow_IZR, Z2Nat.id by exact H. reflexivity.
Qed.
Lemma power_add a b : powerRZ 10 (a + b) = (powerRZ 10 a * powerRZ 10 b)%R.
Proof. apply powerRZ_add. lra. Qed.
Lemma power_pos a : (0 < powerRZ 10 a)%R.
Proof. apply powerRZ_lt. lra. Qed.

Lemma general_literal d X s neg : 0 <= d -> general_text d X s ->
  exists m e, unsigned_numeral neg s (LDec neg m e) /\ (IZR m * powerRZ 10 e = IZR d * powerRZ 10 (X - 5))%R.
Proof.
  intros Hd [s' HX HF|m e HX HF HE].
  - destruct (fixed_mantissa d (5 - X) s' Hd ltac:(lia) HF) as (v & fr & Hm & Hfr & E).
    exists v, (0 - fr). split.
    + rewrite <- (app_nil_s s'). apply un_dec; [exact Hm|constructor].
    + rewrite E, mult_IZR, power_nat by lia. rewrite Rmult_assoc, <- power_add. f_equal. f_equal. lia.
  - destruct (fixed_mantissa d 5 m Hd ltac:(lia) HF) as (v & fr & Hm & Hfr & E).
    exists v, (X - fr). split.
    + apply un_dec; [exact Hm|apply exponent_value; exact HE].
    + rewrite E, mult_IZR, power_nat by lia. rewrite Rmult_assoc, <- power_add. f_equal. f_equal. lia.
Qed.

Lemma six_nonneg v d X : six_digits v d X -> 0 <= d.
Proof.
  intros [X' d' [H1 _] [HN _] _|]; [|lia]. pose proof (power_pos X'). pose proof (power_pos (5 - X')).
  apply Rabs_le_inv in HN. assert (0 < IZR d' + 1/2)%R by nra.
  apply Z.lt_succ_r. apply lt_IZR. rewrite succ_IZR. lra.
Qed.

(** ** How far the text is from the number *)
Lemma six_near v d X : six_digits v d X -> exists X0, (powerRZ 10 X0 <= Rabs v < powerRZ 10 (X0 + 1))%R /\
  (Rabs (Rabs v - IZR d * powerRZ 10 (X - 5)) <= 1/2 * powerRZ 10 (X0 - 5))%R /\
  (IZR d * powerRZ 10 (X - 5) <= powerRZ 10 (X0 + 1))%R.
Proof.
  assert (K : forall X0 k, nearest_integer (Rabs v * powerRZ 10 (5 - X0)) k ->
    (Rabs (Rabs v - IZR k * powerRZ 10 (X0 - 5)) <= 1/2 * powerRZ 10 (X0 - 5))%R).
  { intros X0 k [H _]. pose proof (power_pos (X0 - 5)) as P.
    replace (Rabs v - IZR k * powerRZ 10 (X0 - 5))%R with ((Rabs v * powerRZ 10 (5 - X0) - IZR k) * powerRZ 10 (X0 - 5))%R.
    - rewrite Rabs_mult, (Rabs_pos_eq (powerRZ 10 _)) by lra. apply Rmult_le_compat_r; lra.
    - rewrite Rmult_minus_distr_r, Rmult_assoc, <- power_add. replace (5 - X0 + (X0 - 5)) with 0 by lia. simpl. ring. }
  intros [X0 d0 HX HN Hd|X0 HX HN]; exists X0; (split; [exact HX|]).
  - split; [apply K; exact HN|]. pose proof (power_pos (X0 - 5)).
    apply Rle_trans with (IZR (10 ^ 6) * powerRZ 10 (X0 - 5))%R.
    + apply Rmult_le_compat_r; [lra|]. apply IZR_le. lia.
    + rewrite power_nat, <- power_add by lia. right. f_equal. lia.
  - assert (E : (IZR (10 ^ 5) * powerRZ 10 (X0 + 1 - 5) = IZR (10 ^ 6) * powerRZ 10 (X0 - 5))%R).
    { rewrite !power_nat, <- !power_add by lia. f_equal. lia. }
    rewrite E. split; [apply K; exact HN|]. rewrite power_nat, <- power_add by lia. right. f_equal. lia.
Qed.

Lemma power_lt_inv a b : (powerRZ 10 a < powerRZ 10 b)%R -> a < b.
Proof.
  intros H. destruct (Z_lt_le_dec a b) as [L|L]; [exact L|exfalso].
  replace a with (b + (a - b)) in H by lia. rewrite power_add in H. pose proof (power_pos b) as P.
  assert (1 <= powerRZ 10 (a - b))%R.
  { rewrite <- power_nat by lia. apply IZR_le. assert (0 < 10 ^ (a - b)) by (apply Z.pow_pos_nonneg; lia). lia. }
  nra.
Qed.
Lemma power_le a b : a <= b -> (powerRZ 10 a <= powerRZ 10 b)%R.
Proof.
  intros H. destruct (Rle_lt_dec (powerRZ 10 a) (powerRZ 10 b)) as [L|L]; [exact L|]. apply power_lt_inv in L. lia.
Qed.

Lemma six_close v d X : six_digits v d X -> let w := (IZR d * powerRZ 10 (X - 5))%R in
  (Rabs (Rabs v - w) <= 5 / 1000000 * Rabs v)%R /\
  ((Rabs v <= 1)%R -> (Rabs (Rabs v - w) <= 5 / 10000000)%R /\ (w <= 1)%R).
Proof.
  intros H w. destruct (six_near _ _ _ H) as (X0 & [H1 H2] & HN & HU). fold w in HN, HU.
  assert (R5 : (powerRZ 10 (X0 - 5) = powerRZ 10 X0 / 100000)%R).
  { unfold Z.sub. rewrite power_add. simpl (powerRZ 10 (- (5))). unfold Rdiv. f_equal. f_equal. lra. }
  rewrite R5 in HN. split; [pose proof (power_pos X0); lra|].
  intros L. destruct (Req_dec (Rabs v) 1) as [E|NE].
  - assert (X0 = 0).
    { rewrite E in H1, H2. change 1%R with (powerRZ 10 0) in H1, H2. apply power_lt_inv in H2.
      destruct (Z_lt_le_dec 0 X0) as [P|P]; [|lia]. exfalso.
      pose proof (power_le 1 X0 ltac:(lia)) as Q. simpl in Q. simpl in H1. lra. }
    subst X0. simpl (powerRZ 10 0) in HN.
    assert (EW : w = 1%R).
    { destruct H as [X1 d1 [G1 G2] [GN _] Gd|X1 [G1 G2] [GN _]].
      - assert (X1 = 0).
        { rewrite E in G1, G2. change 1%R with (powerRZ 10 0) in G1, G2. apply power_lt_inv in G2.
          destruct (Z_lt_le_dec 0 X1) as [P|P]; [|lia]. exfalso.
          pose proof (power_le 1 X1 ltac:(lia)) as Q. simpl in Q. simpl in G1. lra. }
        subst X1. rewrite E in GN. change (5 - 0) with 5 in GN. rewrite <- power_nat in GN by lia.
        rewrite Rmult_1_l, <- minus_IZR, <- abs_IZR in GN.
        assert (Z.abs (10 ^ 5 - d1) < 1) by (apply lt_IZR; lra).
        assert (d1 = 10 ^ 5) by lia. subst d1. unfold w. rewrite power_nat, <- power_add by lia. reflexivity.
      - assert (X1 = 0).
        { rewrite E in G1, G2. change 1%R with (powerRZ 10 0) in G1, G2. apply power_lt_inv in G2.
          destruct (Z_lt_le_dec 0 X1) as [P|P]; [|lia]. exfalso.
          pose proof (power_le 1 X1 ltac:(lia)) as Q. simpl in Q. simpl in G1. lra. }
        subst X1. exfalso. rewrite E in GN. change (5 - 0) with 5 in GN. rewrite <- power_nat in GN by lia.
        rewrite Rmult_1_l, <- minus_IZR, <- abs_IZR in GN. simpl in GN. lra. }
    rewrite EW, E. split; [|lra]. rewrite Rminus_eq_0, Rabs_R0. lra.
  - assert (X0 < 0). { apply power_lt_inv. simpl. lra. }
    pose proof (power_le (X0 + 1) 0 ltac:(lia)) as Q. simpl (powerRZ 10 0) in Q. rewrite power_add in Q. simpl (powerRZ 10 1) in Q.
    split; [lra|]. rewrite power_add in HU. simpl (powerRZ 10 1) in HU. lra.
Qed.

(** The text reads as a number within half a unit of the sixth digit. *)
Lemma printed_reads v s : printed v s -> exists w, text_value s w /\
  (Rabs (w - v) <= 5 / 1000000 * Rabs v)%R /\
  ((Rabs v <= 1)%R -> (Rabs (w - v) <= 5 / 10000000)%R) /\
  ((0 <= v <= 1)%R -> (0 <= w <= 1)%R).
Proof.
  intros [s' -> Hs|d X s' Hv HS HG|d X s' Hv HS HG].
  - exists 0%R. split.
    + assert (M : mantissa dec_digit 10 "0" 0 0).
      { apply man_int; [|discriminate]. change 0 with (0 * 10 ^ slen "" + 0) at 1. constructor; [split; [lia|reflexivity]|constructor]. }
      destruct Hs as [-> | ->].
      * exists (LDec false 0 (0 - 0)). split; [|simpl; ring].
        apply (numeral_intro "" "" false "0"); [constructor|constructor|]. apply (un_dec false "0" 0 0 "" 0); [exact M|constructor].
      * exists (LDec true 0 (0 - 0)). split; [|simpl; ring].
        apply (numeral_intro "" "-" true "0"); [constructor|constructor|]. apply (un_dec true "0" 0 0 "" 0); [exact M|constructor].
    + rewrite Rminus_0_r, !Rabs_R0. repeat split; lra.
  - pose proof (six_nonneg _ _ _ HS) as Hd. destruct (general_literal _ _ _ false Hd HG) as (m & e & HU & HE).
    destruct (six_close _ _ _ HS) as [C1 C2]. set (w := (IZR d * powerRZ 10 (X - 5))%R) in *.
    assert (AV : Rabs v = v) by (apply Rabs_pos_eq; lra). rewrite AV in *.
    exists w. split; [|split; [rewrite Rabs_minus_sym; exact C1|split; [intros L; rewrite Rabs_minus_sym; apply C2; exact L|]]].
    + exists (LDec false m e). split; [apply (numeral_intro "" "" false); [constructor|constructor|exact HU]|]. simpl. rewrite Rmult_1_l. symmetry. exact HE.
    + intros [_ L]. split; [|apply C2; exact L]. unfold w. apply Rmult_le_pos; [apply IZR_le; exact Hd|left; apply power_pos].
  - pose proof (six_nonneg _ _ _ HS) as Hd. destruct (general_literal _ _ _ true Hd HG) as (m & e & HU & HE).
    destruct (six_close _ _ _ HS) as [C1 C2]. set (w := (IZR d * powerRZ 10 (X - 5))%R) in *.
    assert (AV : Rabs v = (- v)%R) by (apply Rabs_left; lra). rewrite AV in *.
    exists (- w)%R. replace (- w - v)%R with (- v - w)%R by ring. split; [|split; [exact C1|split; [intros L; apply C2; exact L|lra]]].
    exists (LDec true m e). split; [apply (numeral_intro "" "-" true); [constructor|constructor|exact HU]|]. simpl.
    rewrite Rmult_assoc, HE. fold w. ring.
Qed.
