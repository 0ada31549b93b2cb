(** * ShowMore: the text is determined by the number, and a function that writes it. *)
From Flocq Require Import Core.Core.
From Coq Require Import ZArith Reals Bool Ascii String Lia Lra List.
From Verif Require Import Num StringSpec StrtodSpec ShowSpec ShowFacts.
Import ListNotations.
Local Open Scope string_scope.
Local Open Scope Z_scope.

(** ** Removing zeros *)
Fixpoint rstrip (s : string) : string :=
  match s with
  | "" => ""
  | String c r => match rstrip r with
                  | "" => if Ascii.eqb c "0" then "" else String c ""
                  | r' => String c r'
                  end
  end.
Lemma rstrip_zeros zs : each (fun c => c = "0"%char) zs -> rstrip zs = "".
Proof.
  unfold each. induction zs as [|c r IH]; intros H; [reflexivity|]. inversion H; subst. simpl. rewrite IH by assumption. reflexivity.
Qed.
Lemma rstrip_app fp zs : each (fun c => c = "0"%char) zs -> rstrip (fp ++ zs) = rstrip fp.
Proof. intros H. induction fp as [|c r IH]; [apply rstrip_zeros; exact H|]. simpl. rewrite IH. reflexivity. Qed.
Lemma rstrip_split s : exists zs, s = rstrip s ++ zs /\ each (fun c => c = "0"%char) zs.
Proof.
  induction s as [|c r (zs & E & Hz)]; [exists ""; split; [reflexivity|constructor]|].
  simpl. destruct (rstrip r) as [|c' r'] eqn:ER.
  - destruct (Ascii.eqb_spec c "0") as [->|N].
    + exists (String "0" r). split; [reflexivity|]. simpl in E. subst zs. constructor; [reflexivity|exact Hz].
    + exists r. split; [reflexivity|]. simpl in E. subst zs. exact Hz.
  - exists zs. split; [|exact Hz]. rewrite E at 1. reflexivity.
Qed.
Lemma rstrip_end s t : rstrip s <> t ++ "0".
Proof.
  revert t. induction s as [|c r IH]; intros t H; [destruct t; discriminate|]. simpl in H.
  destruct (rstrip r) as [|c' r'] eqn:ER.
  - destruct (Ascii.eqb_spec c "0") as [->|N]; [destruct t; discriminate|].
    destruct t as [|c0 t]; [inversion H; congruence|]. simpl in H. inversion H. destruct t; discriminate.
  - destruct t as [|c0 t]; [discriminate|]. simpl in H. inversion H. apply (IH t). congruence.
Qed.
Lemma rstrip_id fp : (forall s, fp <> s ++ "0") -> rstrip fp = fp.
Proof.
  intros H. destruct (rstrip_split fp) as (zs & E & Hz).
  destruct zs as [|z zr]; [rewrite app_nil_s in E; congruence|exfalso].
  destruct (each_last _ _ Hz ltac:(discriminate)) as (r & c & Er & ->).
  apply (H (rstrip fp ++ r)). rewrite app_assoc_s. rewrite <- Er. exact E.
Qed.
Fixpoint lstrip (s : string) : string :=
  match s with
  | String c ((String _ _) as r) => if Ascii.eqb c "0" then lstrip r else s
  | _ => s
  end.
Lemma lstrip_plain s m : positional dec_digit 10 s m -> s <> "" -> plain m (lstrip s).
Proof.
  revert m. induction s as [|c r IH]; intros m H N; [congruence|].
  destruct r as [|c' r'].
  - simpl. split; [exact H|]. split; [discriminate|]. intros x Hx. inversion Hx. reflexivity.
  - change (plain m (if Ascii.eqb c "0" then lstrip (String c' r') else String c (String c' r'))).
    destruct (Ascii.eqb_spec c "0") as [->|Nc].
    + inversion H as [|c0 d s v Hd Hs]; subst. apply digit_zero in Hd. subst d.
      rewrite Z.mul_0_l, Z.add_0_l. apply IH; [exact Hs|discriminate].
    + split; [exact H|]. split; [discriminate|]. intros x Hx. inversion Hx. congruence.
Qed.

(** ** The text is determined *)
Lemma positional_unique s s' v : positional dec_digit 10 s v -> positional dec_digit 10 s' v -> slen s = slen s' -> s = s'.
Proof.
  revert s' v. induction s as [|c r IH]; intros s' v H H' L.
  - destruct s' as [|c' r']; [reflexivity|]. rewrite slen_cons in L. pose proof (slen_nonneg r'). unfold slen in L at 1. simpl in L. lia.
  - destruct s' as [|c' r']; [rewrite slen_cons in L; pose proof (slen_nonneg r); unfold slen in L at 2; simpl in L; lia|].
    rewrite !slen_cons in L. assert (L' : slen r = slen r') by lia.
    inversion H as [|c0 d s0 w Hd Hs]; subst. inversion H' as [|c0' d' s0' w' Hd' Hs' X1 X2]; subst c0' s0'.
    pose proof (positional_range _ _ Hs) as R. pose proof (positional_range _ _ Hs') as R'. rewrite <- L' in *.
    set (P := 10 ^ slen r) in *.
    assert (d = d') as -> by (destruct (Z.lt_trichotomy d d') as [Q|[Q|Q]]; [exfalso|exact Q|exfalso]; nia).
    assert (w = w') as -> by lia.
    rewrite (digit_inj _ _ _ Hd Hd'). f_equal. eapply IH; eassumption.
Qed.
Lemma leading s v : positional dec_digit 10 s v -> s <> "" -> (forall r, s <> String "0" r) -> 10 ^ (slen s - 1) <= v.
Proof.
  intros H N Z0. destruct H as [|c d r v Hd Hr]; [congruence|]. rewrite slen_cons. replace (slen r + 1 - 1) with (slen r) by lia.
  pose proof (dec_digit_range _ _ Hd). pose proof (positional_range _ _ Hr).
  assert (d <> 0). { intros ->. apply zero_digit in Hd. subst. apply (Z0 r). reflexivity. }
  assert (0 < 10 ^ slen r) by (apply Z.pow_pos_nonneg; [lia|apply slen_nonneg]). nia.
Qed.
Lemma plain_cases m s : plain m s -> (s = "0" /\ m = 0) \/ (10 ^ (slen s - 1) <= m < 10 ^ slen s).
Proof.
  intros (Hp & N & H0). pose proof (positional_range _ _ Hp) as R.
  destruct s as [|c r]; [congruence|]. destruct (ascii_dec c "0") as [->|Nc].
  - left. specialize (H0 _ eq_refl). subst r. split; [reflexivity|].
    apply (positional_zeros _ _ Hp). constructor; [reflexivity|constructor].
  - right. split; [|apply R]. apply leading; [exact Hp|exact N|]. intros x Hx. inversion Hx. congruence.
Qed.
Lemma length_unique a b m : 0 <= a -> 0 <= b -> 10 ^ (a - 1) <= m < 10 ^ a -> 10 ^ (b - 1) <= m < 10 ^ b -> a = b.
Proof.
  intros Ha Hb H1 H2. destruct (Z.lt_trichotomy a b) as [L|[E|L]]; [|exact E|]; exfalso.
  - assert (10 ^ a <= 10 ^ (b - 1)) by (apply Z.pow_le_mono_r; lia). lia.
  - assert (10 ^ b <= 10 ^ (a - 1)) by (apply Z.pow_le_mono_r; lia). lia.
Qed.
Lemma plain_unique m s s' : plain m s -> plain m s' -> s = s'.
Proof.
  intros H H'. destruct (plain_cases _ _ H) as [[-> E]|C], (plain_cases _ _ H') as [[-> E']|C'].
  - reflexivity.
  - exfalso. assert (0 < 10 ^ (slen s' - 1)) by (destruct H' as (_ & N & _); destruct s'; [congruence|]; rewrite slen_cons; apply Z.pow_pos_nonneg; [lia|]; pose proof (slen_nonneg s'); lia). lia.
  - exfalso. assert (0 < 10 ^ (slen s - 1)) by (destruct H as (_ & N & _); destruct s; [congruence|]; rewrite slen_cons; apply Z.pow_pos_nonneg; [lia|]; pose proof (slen_nonneg s); lia). lia.
  - apply (positional_unique s s' m); [apply H|apply H'|]. apply (length_unique _ _ m); try apply slen_nonneg; assumption.
Qed.
Lemma not_zero_fraction fp zs : positional dec_digit 10 (fp ++ zs) 0 -> fp <> "" -> (forall s, fp <> s ++ "0") -> False.
Proof.
  intros H N Z0. apply positional_zero in H.
  assert (Hf : each (fun c => c = "0"%char) fp).
  { clear N Z0. unfold each in *. induction fp as [|c r IH]; [constructor|]. inversion H; subst. constructor; [reflexivity|apply IH; assumption]. }
  destruct (each_last _ _ Hf N) as (r & c & E & ->). exact (Z0 r E).
Qed.
Lemma fixed_unique m k s s' : fixed_text m k s -> fixed_text m k s' -> s = s'.
Proof.
  intros [ip Hp H0|ip fp zs Hp Hf Hl Hz Hn He] [ip' Hp' H0'|ip' fp' zs' Hp' Hf' Hl' Hz' Hn' He'].
  - eapply plain_unique; eassumption.
  - exfalso. rewrite H0 in Hf'. eapply not_zero_fraction; eassumption.
  - exfalso. rewrite H0' in Hf. eapply not_zero_fraction; eassumption.
  - rewrite (plain_unique _ _ _ Hp Hp'). f_equal. f_equal.
    assert (E : fp ++ zs = fp' ++ zs') by (eapply positional_unique; [eassumption|eassumption|congruence]).
    rewrite <- (rstrip_id fp He), <- (rstrip_id fp' He'), <- (rstrip_app fp zs Hz), <- (rstrip_app fp' zs' Hz'). rewrite E. reflexivity.
Qed.
Lemma exponent_unique X e e' : exponent_text X e -> exponent_text X e' -> e = e'.
Proof.
  intros [sg s Hs Hp Hl] [sg' s' Hs' Hp' Hl'].
  assert (sg = sg') as <- by (destruct Hs as [[? ->]|[? ->]], Hs' as [[? ->]|[? ->]]; try reflexivity; lia).
  f_equal. apply (positional_unique _ _ _ Hp Hp').
  pose proof (positional_range _ _ Hp) as R. pose proof (positional_range _ _ Hp') as R'.
  assert (K : forall t, positional dec_digit 10 t (Z.abs X) -> 2 < slen t /\ (forall r, t <> String "0" r) -> 10 ^ (slen t - 1) <= Z.abs X).
  { intros t Ht [Lt Zt]. apply leading; [exact Ht| |exact Zt]. intros ->. unfold slen in Lt. simpl in Lt. lia. }
  destruct Hl as [L|L], Hl' as [L'|L']; [congruence| | |].
  - exfalso. pose proof (K _ Hp' L'). rewrite L in R. assert (10 ^ 2 <= 10 ^ (slen s' - 1)) by (apply Z.pow_le_mono_r; lia). lia.
  - exfalso. pose proof (K _ Hp L). rewrite L' in R'. assert (10 ^ 2 <= 10 ^ (slen s - 1)) by (apply Z.pow_le_mono_r; lia). lia.
  - apply (length_unique _ _ (Z.abs X)); try apply slen_nonneg; (split; [apply K; assumption|apply R || apply R']).
Qed.
Lemma general_unique d X s s' : general_text d X s -> general_text d X s' -> s = s'.
Proof.
  intros [t HX HF|m e HX HF HE] [t' HX' HF'|m' e' HX' HF' HE']; [|lia|lia|].
  - eapply fixed_unique; eassumption.
  - rewrite (fixed_unique _ _ _ _ HF HF'), (exponent_unique _ _ _ HE HE'). reflexivity.
Qed.
Lemma nearest_unique x d d' : nearest_integer x d -> nearest_integer x d' -> d = d'.
Proof.
  intros [H E] [H' E']. apply Rabs_le_inv in H as G. apply Rabs_le_inv in H' as G'.
  destruct (Z.eq_dec d d') as [Q|N]; [exact Q|exfalso].
  assert (Z.abs (d - d') = 1).
  { assert (Z.abs (d - d') <= 1); [|lia]. apply le_IZR. rewrite abs_IZR, minus_IZR. apply Rabs_le. lra. }
  assert (C : d = d' + 1 \/ d' = d + 1) by lia. destruct C as [-> | ->].
  - rewrite plus_IZR in *. assert (T : (x - IZR d' = 1/2)%R) by lra.
    assert (Z.even d' = true) by (apply E'; rewrite T; apply Rabs_pos_eq; lra).
    assert (Z.even (d' + 1) = true) by (apply E; replace (x - (IZR d' + 1))%R with (- (1/2))%R by lra; rewrite Rabs_Ropp; apply Rabs_pos_eq; lra).
    rewrite Z.even_add in H2. rewrite H1 in H2. discriminate.
  - rewrite plus_IZR in *. assert (T : (x - IZR d = 1/2)%R) by lra.
    assert (Z.even d = true) by (apply E; rewrite T; apply Rabs_pos_eq; lra).
    assert (Z.even (d + 1) = true) by (apply E'; replace (x - (IZR d + 1))%R with (- (1/2))%R by lra; rewrite Rabs_Ropp; apply Rabs_pos_eq; lra).
    rewrite Z.even_add in H2. rewrite H1 in H2. discriminate.
Qed.
Lemma decade_unique x X X' : (powerRZ 10 X <= x < powerRZ 10 (X + 1))%R -> (powerRZ 10 X' <= x < powerRZ 10 (X' + 1))%R -> X = X'.
Proof.
  intros [H1 H2] [H1' H2'].
  pose proof (power_lt_inv X (X' + 1) ltac:(lra)). pose proof (power_lt_inv X' (X + 1) ltac:(lra)). lia.
Qed.
Lemma six_unique v d X d' X' : six_digits v d X -> six_digits v d' X' -> d = d' /\ X = X'.
Proof.
  intros [Y k HX HN Hd|Y HX HN] [Y' k' HX' HN' Hd'|Y' HX' HN']; rewrite <- (decade_unique _ _ _ HX HX') in *.
  - split; [exact (nearest_unique _ _ _ HN HN')|reflexivity].
  - pose proof (nearest_unique _ _ _ HN HN'). lia.
  - pose proof (nearest_unique _ _ _ HN HN'). lia.
  - split; reflexivity.
Qed.
Lemma printed_unique v s s' : v <> 0%R -> printed v s -> printed v s' -> s = s'.
Proof.
  intros N [t E _|d X t Hv HS HG|d X t Hv HS HG] [t' E' _|d' X' t' Hv' HS' HG'|d' X' t' Hv' HS' HG']; try congruence; try lra.
  - destruct (six_unique _ _ _ _ _ HS HS') as [<- <-]. eapply general_unique; eassumption.
  - destruct (six_unique _ _ _ _ _ HS HS') as [<- <-]. f_equal. eapply general_unique; eassumption.
Qed.

(** ** A function that writes the text *)
Definition digit_char (d : Z) : ascii := ascii_of_N (Z.to_N (48 + d)).
Lemma digit_char_ok d : 0 <= d < 10 -> dec_digit (digit_char d) d.
Proof.
  intros H. split; [lia|].
  assert (d = 0 \/ d = 1 \/ d = 2 \/ d = 3 \/ d = 4 \/ d = 5 \/ d = 6 \/ d = 7 \/ d = 8 \/ d = 9) as C by lia.
  repeat destruct C as [C|C]; subst d; reflexivity.
Qed.
Fixpoint fixn (k : nat) (m : Z) : string :=
  match k with
  | O => ""
  | S k => String (digit_char (m / 10 ^ Z.of_nat k)) (fixn k (m mod 10 ^ Z.of_nat k))
  end.
Lemma fixn_ok k m : 0 <= m < 10 ^ Z.of_nat k -> positional dec_digit 10 (fixn k m) m /\ slen (fixn k m) = Z.of_nat k.
Proof.
  revert m. induction k as [|k IH]; intros m H.
  - simpl in *. assert (m = 0) as -> by lia. split; [constructor|reflexivity].
  - assert (P : 0 < 10 ^ Z.of_nat k) by (apply Z.pow_pos_nonneg; lia).
    destruct (IH (m mod 10 ^ Z.of_nat k)) as [H1 H2]; [apply Z.mod_pos_bound; exact P|].
    cbn [fixn]. split; [|rewrite slen_cons, H2; lia].
    assert (D : dec_digit (digit_char (m / 10 ^ Z.of_nat k)) (m / 10 ^ Z.of_nat k)).
    { apply digit_char_ok. split; [apply Z.div_pos; lia|]. apply Z.div_lt_upper_bound; [exact P|].
      rewrite Nat2Z.inj_succ, Z.pow_succ_r in H by lia. lia. }
    pose proof (pos_cons dec_digit 10 _ _ _ _ D H1) as Q. rewrite H2 in Q.
    replace (m / 10 ^ Z.of_nat k * 10 ^ Z.of_nat k + m mod 10 ^ Z.of_nat k) with m in Q; [exact Q|].
    rewrite Z.mul_comm. apply Z.div_mod. lia.
Qed.
Definition width (m : Z) : nat := S (Z.to_nat (Z.log2 m)).
Lemma width_ok m : 0 <= m -> m < 10 ^ Z.of_nat (width m).
Proof.
  intros H. unfold width. rewrite Nat2Z.inj_succ, Z2Nat.id by apply Z.log2_nonneg. destruct (Z.eq_dec m 0) as [->|N]; [simpl; lia|].
  destruct (Z.log2_spec m ltac:(lia)) as [_ U]. eapply Z.lt_le_trans; [exact U|]. apply Z.pow_le_mono_l. lia.
Qed.
Definition plain_of (m : Z) : string := lstrip (fixn (width m) m).
Lemma plain_of_ok m : 0 <= m -> plain m (plain_of m).
Proof. intros H. apply lstrip_plain; [apply fixn_ok; split; [exact H|apply width_ok; exact H]|discriminate]. Qed.
Definition fixed_of (m : Z) (k : nat) : string :=
  let ip := plain_of (m / 10 ^ Z.of_nat k) in
  match rstrip (fixn k (m mod 10 ^ Z.of_nat k)) with
  | "" => ip
  | fp => ip ++ String "." fp
  end.
Lemma fixed_of_ok m k : 0 <= m -> fixed_text m (Z.of_nat k) (fixed_of m k).
Proof.
  intros H. unfold fixed_of. assert (P : 0 < 10 ^ Z.of_nat k) by (apply Z.pow_pos_nonneg; lia).
  destruct (fixn_ok k (m mod 10 ^ Z.of_nat k)) as [Hp Hl]; [apply Z.mod_pos_bound; exact P|].
  pose proof (plain_of_ok (m / 10 ^ Z.of_nat k) ltac:(apply Z.div_pos; lia)) as HI.
  set (f := fixn k _) in *. destruct (rstrip_split f) as (zs & E & Hz). pose proof (rstrip_end f) as HE.
  destruct (rstrip f) as [|c r] eqn:ER.
  - apply fixed_int; [exact HI|]. simpl in E. subst zs. exact (positional_zeros _ _ Hp Hz).
  - apply (fixed_frac _ _ _ (String c r) zs); [exact HI|rewrite <- E; exact Hp|rewrite <- E; exact Hl|exact Hz|discriminate|].
    intros s Hs. exact (HE s Hs).
Qed.
Definition exponent_of (X : Z) : string :=
  (if X <? 0 then "-" else "+") ++ (if Z.abs X <? 100 then fixn 2 (Z.abs X) else plain_of (Z.abs X)).
Lemma exponent_of_ok X : exponent_text X (exponent_of X).
Proof.
  unfold exponent_of. destruct (Z.ltb_spec X 0) as [L|L], (Z.ltb_spec (Z.abs X) 100) as [S|S].
  all: constructor; [auto; fail|..].
  all: try (apply fixn_ok; simpl; lia). all: try (apply plain_of_ok; lia).
  all: try (left; apply fixn_ok; simpl; lia).
  all: right; pose proof (plain_of_ok (Z.abs X) ltac:(lia)) as HP; destruct (plain_cases _ _ HP) as [[_ C]|[_ C]]; [lia|].
  all: split; [destruct (Z_lt_le_dec 2 (slen (plain_of (Z.abs X)))) as [A|A]; [exact A|exfalso];
    assert (10 ^ slen (plain_of (Z.abs X)) <= 10 ^ 2) by (apply Z.pow_le_mono_r; lia); lia|].
  all: intros r Hr; destruct HP as (HP & _ & H0); rewrite (H0 _ Hr) in Hr; rewrite Hr in HP;
    apply positional_zeros in HP; [lia|constructor; [reflexivity|constructor]].
Qed.
Definition general_of (d X : Z) : string :=
  if (-4 <=? X) && (X <? 6) then fixed_of d (Z.to_nat (5 - X)) else fixed_of d 5 ++ String "e" (exponent_of X).
Lemma general_of_ok d X : 0 <= d -> general_text d X (general_of d X).
Proof.
  intros H. unfold general_of. destruct (Z.leb_spec (-4) X), (Z.ltb_spec X 6); simpl.
  - apply general_f; [lia|]. rewrite <- (Z2Nat.id (5 - X)) at 1 by lia. apply fixed_of_ok. exact H.
  - apply general_e; [lia|apply (fixed_of_ok d 5 H)|apply exponent_of_ok].
  - apply general_e; [lia|apply (fixed_of_ok d 5 H)|apply exponent_of_ok].
  - lia.
Qed.
Lemma nearest_ok x : nearest_integer x (ZnearestE x).
Proof.
  split; [replace (1/2)%R with (/2)%R by lra; apply Znearest_half|]. intros E. rewrite Rabs_minus_sym in E.
  unfold Znearest in *. destruct (Rcompare_spec (x - IZR (Zfloor x)) (/ 2)) as [L|L|L].
  - exfalso. rewrite Rabs_minus_sym, Rabs_pos_eq in E; [lra|]. pose proof (Zfloor_lb x). lra.
  - destruct (Z.even (Zfloor x)) eqn:EV; simpl; [exact EV|].
    rewrite Zceil_floor_neq by (intros Q; rewrite Q in L; lra). rewrite Z.even_add, EV. reflexivity.
  - exfalso. destruct (Req_dec x (IZR (Zfloor x))) as [Q|Q]; [lra|].
    rewrite Zceil_floor_neq in E by (intros Q'; lra). rewrite plus_IZR in E. pose proof (Zfloor_ub x). rewrite Rabs_pos_eq in E; lra.
Qed.
Definition radix10 : radix := Build_radix 10 (refl_equal _).
Lemma bpow10 e : bpow radix10 e = powerRZ 10 e.
Proof. rewrite bpow_powerRZ. reflexivity. Qed.
Definition decade (v : R) : Z := (mag radix10 v - 1)%Z.
Lemma decade_ok v : v <> 0%R -> (powerRZ 10 (decade v) <= Rabs v < powerRZ 10 (decade v + 1))%R.
Proof.
  intros N. unfold decade. destruct (mag radix10 v) as [e He]. simpl. specialize (He N). rewrite !bpow10 in He.
  replace (e - 1 + 1) with e by lia. exact He.
Qed.
Definition six_of (v : R) : Z * Z :=
  let X := decade v in
  let d := ZnearestE (Rabs v * powerRZ 10 (5 - X)) in
  if d <? 10 ^ 6 then (d, X) else (10 ^ 5, X + 1).
Lemma six_of_ok v : v <> 0%R -> six_digits v (fst (six_of v)) (snd (six_of v)).
Proof.
  intros N. pose proof (decade_ok v N) as HD. unfold six_of. cbv zeta. set (X := decade v) in *.
  pose proof (nearest_ok (Rabs v * powerRZ 10 (5 - X))) as HN. set (d := ZnearestE _) in *.
  destruct (Z.ltb_spec d (10 ^ 6)) as [L|L]; simpl fst; simpl snd; [apply six_within; assumption|].
  apply six_carried; [exact HD|].
  assert (d = 10 ^ 6) as <-; [|exact HN]. apply Z.le_antisymm; [|exact L].
  destruct HN as [HN _]. apply Rabs_le_inv in HN. apply Z.lt_succ_r. apply lt_IZR. rewrite succ_IZR.
  assert (Rabs v * powerRZ 10 (5 - X) < IZR (10 ^ 6))%R; [|lra].
  rewrite power_nat by lia. replace 6 with (X + 1 + (5 - X)) by lia. rewrite power_add. apply Rmult_lt_compat_r; [apply power_pos|apply HD].
Qed.
Definition show6 (v : R) : string :=
  if Req_EM_T v 0 then "0"
  else let '(d, X) := six_of v in
       if Rlt_dec v 0 then "-" ++ general_of d X else general_of d X.
Lemma show6_ok v : printed v (show6 v).
Proof.
  unfold show6. destruct (Req_EM_T v 0) as [E|N]; [apply printed_zero; [exact E|left; reflexivity]|].
  pose proof (six_of_ok v N) as HS. destruct (six_of v) as [d X]. simpl in HS.
  pose proof (general_of_ok d X (six_nonneg _ _ _ HS)) as HG.
  destruct (Rlt_dec v 0) as [L|L]; [eapply printed_neg; eassumption|]. eapply printed_pos; [|eassumption|eassumption]. lra.
Qed.
