(** * StringFacts: the string-reading model meets StringSpec. *)
From Coq Require Import ZArith List Bool Ascii String Lia.
From Verif Require Import Base Num StringUtils StringSpec.
Import ListNotations.
Local Open Scope string_scope.
Local Open Scope Z_scope.

(** ** Strings *)
Lemma sapp_nil_r s : s ++ "" = s.
Proof. induction s; simpl; congruence. Qed.
Lemma sapp_assoc a b c : (a ++ b) ++ c = a ++ b ++ c.
Proof. induction a; simpl; congruence. Qed.
Lemma slength_app a b : String.length (a ++ b) = (String.length a + String.length b)%nat.
Proof. induction a; simpl; congruence. Qed.
Lemma slen_app a b : slen (a ++ b) = slen a + slen b.
Proof. unfold slen. rewrite slength_app. lia. Qed.
Lemma slen_cons c s : slen (String c s) = 1 + slen s.
Proof. unfold slen. cbn [String.length]. lia. Qed.
Lemma slen_pos s : 0 <= slen s.
Proof. unfold slen. lia. Qed.
Lemma slen_0 s : slen s = 0 <-> s = "".
Proof. unfold slen. destruct s; cbn [String.length]; split; intros H; try reflexivity; try lia; discriminate. Qed.
Lemma sapp_inv_len a b c d : a ++ b = c ++ d -> String.length a = String.length c -> a = c /\ b = d.
Proof.
  revert c; induction a as [|x a IH]; intros [|y c] H L; simpl in *; try discriminate.
  - auto.
  - injection H as -> H. destruct (IH c H) as [-> ->]; [lia|auto].
Qed.
Lemma each_app P a b : each P (a ++ b) <-> each P a /\ each P b.
Proof.
  unfold each. induction a as [|c a IH]; simpl.
  - split; [intros H; split; [constructor|exact H]|intros [_ H]; exact H].
  - rewrite !Forall_cons_iff, IH. tauto.
Qed.
Lemma each_cons P c s : each P (String c s) <-> P c /\ each P s.
Proof. unfold each. simpl. apply Forall_cons_iff. Qed.
Lemma each_nil P : each P "".
Proof. constructor. Qed.
Lemma sapp_eq_nil a b : a ++ b = "" -> a = "" /\ b = "".
Proof. destruct a; simpl; [auto|discriminate]. Qed.

(** ** Characters *)
Lemma isspace_blank c : isspace c = true <-> blank c.
Proof.
  unfold blank. split.
  - destruct c as [[] [] [] [] [] [] [] []]; vm_compute; intros H; try discriminate;
      repeat (first [left; reflexivity | right]).
  - simpl; intros [<-|[<-|[<-|[<-|[<-|[<-|[]]]]]]]; reflexivity.
Qed.

Lemma get_some_cases n s c : String.get n s = Some c -> exists k, (k < String.length s)%nat /\ n = k.
Proof.
  revert n; induction s as [|a s IH]; intros [|n] H; simpl in H; try discriminate.
  - exists 0%nat; simpl; split; [lia|reflexivity].
  - destruct (IH n H) as (k & L & ->). exists (S k). simpl. split; [lia|reflexivity].
Qed.

Lemma digit_dec c d : digit c = Some d <-> dec_digit c d.
Proof.
  unfold dec_digit. split.
  - destruct c as [[] [] [] [] [] [] [] []]; vm_compute; intros H; try discriminate;
      assert (E : d = _) by (injection H as H; symmetry; exact H); subst d;
      (split; [discriminate|reflexivity]).
  - intros (P & H). destruct (get_some_cases _ _ _ H) as (k & L & E).
    cbn [String.length] in L.
    do 10 (destruct k as [|k];
      [rewrite E in H; simpl in H; injection H as <-; vm_compute; f_equal; lia|]). lia.
Qed.

Lemma hexdigit_hex c d : hexdigit c = Some d <-> hex_digit c d.
Proof.
  unfold hex_digit. split.
  - destruct c as [[] [] [] [] [] [] [] []]; vm_compute; intros H; try discriminate;
      assert (E : d = _) by (injection H as H; symmetry; exact H); subst d;
      (split; [discriminate|first [left; reflexivity|right; reflexivity]]).
  - intros (P & [H|H]); destruct (get_some_cases _ _ _ H) as (k & L & E);
    cbn [String.length] in L;
    do 16 (destruct k as [|k];
      [rewrite E in H; simpl in H; injection H as <-; vm_compute; f_equal; lia|]); lia.
Qed.

(** Facts about fixed characters, by running through all 256 bytes. *)
Ltac allbytes c := destruct c as [[] [] [] [] [] [] [] []].

Lemma lower_eq p c : In p (list_ascii_of_string "infty0xanepINFTY") -> lower p = p ->
  (Ascii.eqb p (lower c) = true <-> c = p \/ c = upper_of p).
Proof.
  intros I L. simpl in I. rewrite Ascii.eqb_eq. split.
  - repeat (destruct I as [<-|I]); try destruct I; allbytes c; vm_compute; intros E;
      try discriminate; first [left; reflexivity|right; reflexivity|vm_compute in L; discriminate].
  - intros [-> | ->]; [congruence|].
    repeat (destruct I as [<-|I]); try destruct I; vm_compute; try reflexivity; vm_compute in L; discriminate.
Qed.

(** ** Digits *)
Section Digits.
Variables (dig : ascii -> option Z) (isdig : ascii -> Z -> Prop) (base : Z).
Hypothesis dig_ok : forall c d, dig c = Some d <-> isdig c d.

Lemma dig_fun c d d' : isdig c d -> isdig c d' -> d = d'.
Proof. intros H H'. apply dig_ok in H, H'. congruence. Qed.

Lemma read_digits_app s v : positional isdig base s v -> forall acc cnt rest,
  read_digits dig base acc cnt (s ++ rest) =
  read_digits dig base (acc * base ^ slen s + v) (cnt + slen s) rest.
Proof.
  induction 1 as [|c d s v D P IH]; intros acc cnt rest.
  - simpl. f_equal; unfold slen; simpl; lia.
  - cbn [append read_digits]. rewrite (proj2 (dig_ok c d) D), IH, slen_cons.
    rewrite Z.pow_add_r by (pose proof (slen_pos s); lia). f_equal; ring.
Qed.

Lemma read_digits_run s : forall acc cnt,
  exists p v rest, s = p ++ rest /\ positional isdig base p v /\
    read_digits dig base acc cnt s = (acc * base ^ slen p + v, cnt + slen p, rest) /\
    match rest with String c _ => dig c = None | "" => True end.
Proof.
  induction s as [|c s IH]; intros acc cnt.
  - exists "", 0, "". repeat split; [constructor|]. simpl. unfold slen; simpl. f_equal; f_equal; lia.
  - cbn [read_digits]. destruct (dig c) as [d|] eqn:D.
    + destruct (IH (acc * base + d) (cnt + 1)) as (p & v & rest & -> & P & E & R).
      exists (String c p), (d * base ^ slen p + v), rest. repeat split.
      * constructor; [apply dig_ok; exact D|exact P].
      * rewrite E, slen_cons, Z.pow_add_r by (pose proof (slen_pos p); lia).
        f_equal; f_equal; ring.
      * exact R.
    + exists "", 0, (String c s). repeat split; [constructor| |exact D].
      unfold slen; simpl. f_equal; f_equal; lia.
Qed.

Lemma positional_fun s v v' : positional isdig base s v -> positional isdig base s v' -> v = v'.
Proof.
  intros H; revert v'; induction H as [|c d s v D P IH]; intros v' H'; inversion H'; subst; [reflexivity|].
  f_equal; [f_equal; eapply dig_fun; eassumption|apply IH; assumption].
Qed.

Lemma positional_first s v c r : positional isdig base s v -> s = String c r -> exists d, dig c = Some d.
Proof.
  intros H E; destruct H as [|c' d s' v' D P]; [discriminate|]. injection E as -> ->.
  exists d. apply dig_ok; exact D.
Qed.

(** ** Mantissas *)
Hypothesis point : dig "." = None.

Lemma read_mantissa_sound s v fr cnt rest :
  read_mantissa dig base s = (v, fr, cnt, rest) -> cnt <> 0 ->
  exists p, s = p ++ rest /\ mantissa isdig base p v fr.
Proof.
  unfold read_mantissa.
  destruct (read_digits_run s 0 0) as (p & v1 & r & -> & P & -> & R).
  destruct r as [|c r].
  - intros E N. exists p. assert (rest = "" /\ fr = 0 /\ cnt = slen p /\ v = v1) as (-> & -> & -> & ->)
      by (repeat split; try congruence; injection E; lia).
    split; [reflexivity|]. constructor; [exact P|]. intros ->. apply N. reflexivity.
  - destruct (Ascii.eqb c ".") eqn:C.
    + apply Ascii.eqb_eq in C. subst c.
      destruct (read_digits_run r (0 * base ^ slen p + v1) 0) as (q & v2 & r2 & -> & Q & -> & R2).
      destruct (0 + slen p + (0 + slen q) =? 0) eqn:Z0.
      * intros E N. exfalso. apply N. congruence.
      * intros E N. exists (p ++ String "." q).
        assert (rest = r2) as -> by congruence.
        split; [rewrite sapp_assoc; reflexivity|].
        assert (v = v1 * base ^ slen q + v2) as -> by (injection E; intros; subst; ring).
        assert (fr = slen q) as -> by (injection E; intros; subst; ring).
        constructor; [exact P|exact Q|].
        intros E0. apply sapp_eq_nil in E0 as (-> & ->). discriminate.
    + intros E N. exists p. assert (rest = String c r) as -> by congruence.
      assert (v = v1) as -> by (injection E; intros; subst; ring).
      assert (fr = 0) as -> by congruence.
      split; [reflexivity|]. constructor; [exact P|]. intros ->. apply N.
      assert (cnt = 0 + slen "") by congruence. subst. reflexivity.
Qed.

(** Scanning a mantissa followed by anything reads at least that mantissa, and
    exactly its value if it reads no more. *)
Lemma read_mantissa_complete p v fr rest : mantissa isdig base p v fr ->
  exists v' fr' cnt' rest', read_mantissa dig base (p ++ rest) = (v', fr', cnt', rest') /\
    0 < cnt' /\ (String.length rest' <= String.length rest)%nat /\
    (String.length rest' = String.length rest -> v' = v /\ fr' = fr /\ rest' = rest) /\
    (match rest with
     | String c _ => dig c = None /\ c <> "."%char
     | "" => True end -> rest' = rest).
Proof.
  unfold read_mantissa. destruct 1 as [s v P NE|s1 v1 s2 v2 P1 P2 NE].
  - rewrite (read_digits_app s v P).
    assert (0 < slen s) as SP.
    { pose proof (slen_pos s). destruct (Z.eq_dec (slen s) 0) as [E|E]; [|lia].
      apply slen_0 in E. contradiction. }
    destruct (read_digits_run rest (0 * base ^ slen s + v) (0 + slen s)) as (q & w & r & -> & Q & -> & R).
    pose proof (slen_pos q) as QP.
    destruct r as [|c r].
    + rewrite sapp_nil_r. do 4 eexists. split; [reflexivity|].
      repeat split; try lia.
      * simpl. lia.
      * simpl in H. destruct q; [|discriminate]. inversion Q; subst. unfold slen; simpl. ring.
      * simpl in H. destruct q; [reflexivity|discriminate].
      * intros H. destruct q as [|c q]; [reflexivity|]. destruct H as (D & _).
        destruct (positional_first _ _ c q Q eq_refl) as (d & D'). congruence.
    + destruct (Ascii.eqb c ".") eqn:C.
      * apply Ascii.eqb_eq in C. subst c.
        destruct (read_digits_run r ((0 * base ^ slen s + v) * base ^ slen q + w) 0) as (q2 & v2 & r2 & -> & Q2 & -> & R2).
        pose proof (slen_pos q2).
        destruct (0 + slen s + slen q + (0 + slen q2) =? 0) eqn:Z0; [apply Z.eqb_eq in Z0; lia|].
        do 4 eexists. split; [reflexivity|]. rewrite !slength_app. cbn [String.length].
        repeat split; try lia; rewrite ?slength_app in *; try lia.
        intros H0. destruct q as [|c q].
        { simpl in H0. destruct H0 as (_ & H0). exfalso; apply H0; reflexivity. }
        simpl in H0. destruct H0 as (D & _).
        destruct (positional_first _ _ c q Q eq_refl) as (d & D'). congruence.
      * do 4 eexists. split; [reflexivity|]. rewrite slength_app.
        repeat split; try lia.
        -- assert (q = "") as -> by (destruct q; [reflexivity|simpl in H; lia]).
           inversion Q; subst. unfold slen; simpl. ring.
        -- assert (q = "") as -> by (destruct q; [reflexivity|simpl in H; lia]). reflexivity.
        -- intros H0. destruct q as [|c' q]; [reflexivity|]. simpl in H0. destruct H0 as (D & _).
           destruct (positional_first _ _ c' q Q eq_refl) as (d & D'). congruence.
  - rewrite sapp_assoc, (read_digits_app s1 v1 P1). cbn [append read_digits].
    rewrite point, Ascii.eqb_refl, (read_digits_app s2 v2 P2).
    destruct (read_digits_run rest ((0 * base ^ slen s1 + v1) * base ^ slen s2 + v2) (0 + slen s2))
      as (q & w & r & -> & Q & -> & R).
    pose proof (slen_pos q). pose proof (slen_pos s1). pose proof (slen_pos s2).
    assert (0 < slen s1 + slen s2) as SP.
    { rewrite <- slen_app. pose proof (slen_pos (s1 ++ s2)).
      destruct (Z.eq_dec (slen (s1 ++ s2)) 0) as [E|E]; [|lia].
      apply slen_0 in E. contradiction. }
    destruct (0 + slen s1 + (0 + slen s2 + slen q) =? 0) eqn:Z0; [apply Z.eqb_eq in Z0; lia|].
    do 4 eexists. split; [reflexivity|]. rewrite slength_app.
    split; [lia|]. split; [lia|]. split.
    + intros L. assert (q = "") as -> by (destruct q; [reflexivity|simpl in L; lia]).
      inversion Q; subst. change (slen "") with 0. rewrite Z.pow_0_r. repeat split; ring.
    + intros HR. destruct q as [|c' q]; [reflexivity|]. simpl in HR. destruct HR as (D & _).
      destruct (positional_first _ _ c' q Q eq_refl) as (d & D'). congruence.
Qed.

Lemma mantissa_first p v fr : mantissa isdig base p v fr ->
  exists c r, p = String c r /\ (c = "."%char \/ exists d, dig c = Some d).
Proof.
  destruct 1 as [s v P NE|s1 v1 s2 v2 P1 P2 NE].
  - destruct s as [|c s]; [congruence|]. exists c, s. split; [reflexivity|right].
    exact (positional_first _ _ c s P eq_refl).
  - destruct s1 as [|c s1]; simpl.
    + exists "."%char, s2. auto.
    + exists c, (s1 ++ String "." s2). split; [reflexivity|right].
      exact (positional_first _ _ c s1 P1 eq_refl).
Qed.

Lemma positional_each s v : positional isdig base s v -> each (fun c => dig c <> None \/ c = "."%char) s.
Proof.
  induction 1 as [|c d s v D P IH]; [constructor|]. apply each_cons. split; [|exact IH].
  left. rewrite (proj2 (dig_ok c d) D). discriminate.
Qed.
Lemma mantissa_each p v fr : mantissa isdig base p v fr -> each (fun c => dig c <> None \/ c = "."%char) p.
Proof.
  destruct 1 as [s v P NE|s1 v1 s2 v2 P1 P2 NE].
  - exact (positional_each _ _ P).
  - apply each_app. split; [exact (positional_each _ _ P1)|].
    apply each_cons. split; [right; reflexivity|exact (positional_each _ _ P2)].
Qed.
End Digits.

(** ** Signs and exponents *)
Definition not_sign (s : string) : Prop :=
  match s with String c _ => c <> "-"%char /\ c <> "+"%char | "" => True end.

Lemma read_sign_app sg neg rest : sign sg neg -> not_sign rest ->
  read_sign (sg ++ rest) = (neg, rest).
Proof.
  destruct 1; simpl; auto. destruct rest as [|c r]; [reflexivity|]. simpl. intros (A & B).
  destruct (Ascii.eqb_spec c "-"); [contradiction|]. destruct (Ascii.eqb_spec c "+"); [contradiction|].
  reflexivity.
Qed.

Lemma read_sign_sound s : exists sg neg rest, s = sg ++ rest /\ sign sg neg /\ read_sign s = (neg, rest).
Proof.
  destruct s as [|c s]; simpl.
  - exists "", false, "". repeat split. constructor.
  - destruct (Ascii.eqb_spec c "-") as [->|].
    { exists "-", true, s. repeat split. constructor. }
    destruct (Ascii.eqb_spec c "+") as [->|].
    { exists "+", false, s. repeat split. constructor. }
    exists "", false, (String c s). repeat split. constructor.
Qed.

Lemma dec_first_not_sign s v rest : positional dec_digit 10 s v -> s <> "" -> not_sign (s ++ rest).
Proof.
  intros P NE. destruct s as [|c s]; [congruence|]. simpl.
  destruct (positional_first digit dec_digit 10 digit_dec _ _ c s P eq_refl) as (d & D).
  split; intros ->; vm_compute in D; discriminate.
Qed.

Section Exponent.
Variable mark : ascii.
Hypothesis mark_ok : forall c, Ascii.eqb mark (lower c) = true <-> c = mark \/ c = upper_of mark.

Lemma strip_one s : strip_ci (String mark "") s =
  match s with String c r => if Ascii.eqb mark (lower c) then Some r else None | "" => None end.
Proof. destruct s; reflexivity. Qed.

Lemma read_exponent_sound s e rest : read_exponent (String mark "") s = (e, rest) ->
  exists p, s = p ++ rest /\ exponent mark p e.
Proof.
  unfold read_exponent. rewrite strip_one. destruct s as [|c s].
  { intros E. assert (e = 0 /\ rest = "") as (-> & ->) by (split; congruence). exists "". split; [reflexivity|constructor]. }
  destruct (Ascii.eqb mark (lower c)) eqn:M.
  - destruct (read_sign_sound s) as (sg & neg & r & -> & SG & ->).
    destruct (read_digits_run digit dec_digit 10 digit_dec r 0 0) as (p & v & r2 & -> & P & -> & R).
    destruct (0 + slen p =? 0) eqn:Z0; intros E.
    + assert (e = 0 /\ rest = String c (sg ++ p ++ r2)) as (-> & ->) by (split; congruence).
      exists "". split; [reflexivity|constructor].
    + assert (rest = r2) as -> by congruence.
      exists (String c (sg ++ p)). split; [simpl; rewrite sapp_assoc; reflexivity|].
      assert (e = if neg then - v else v) as ->.
      { assert (e = if neg then - (0 * 10 ^ slen p + v) else 0 * 10 ^ slen p + v) as -> by congruence.
        destruct neg; ring. }
      constructor; [apply mark_ok; exact M|exact SG|exact P|].
      intros ->. discriminate.
  - intros E. assert (e = 0 /\ rest = String c s) as (-> & ->) by (split; congruence).
    exists "". split; [reflexivity|constructor].
Qed.

Lemma read_exponent_complete p e rest : exponent mark p e ->
  exists e' rest', read_exponent (String mark "") (p ++ rest) = (e', rest') /\
    (String.length rest' <= String.length rest)%nat /\
    (String.length rest' = String.length rest -> e' = e /\ rest' = rest).
Proof.
  destruct 1 as [|c sg neg s v C SG P NE].
  - simpl. destruct (read_exponent (String mark "") rest) as (e' & rest') eqn:E.
    destruct (read_exponent_sound _ _ _ E) as (q & -> & Q).
    exists e', rest'. split; [reflexivity|]. rewrite slength_app. split; [lia|].
    intros L. assert (q = "") as -> by (destruct q; [reflexivity|simpl in L; lia]).
    inversion Q. auto.
  - unfold read_exponent. rewrite strip_one. cbn [append].
    rewrite (proj2 (mark_ok c) C), sapp_assoc.
    rewrite (read_sign_app sg neg _ SG) by (eapply dec_first_not_sign; eassumption).
    rewrite (read_digits_app digit dec_digit 10 digit_dec s v P).
    destruct (read_digits_run digit dec_digit 10 digit_dec rest (0 * 10 ^ slen s + v) (0 + slen s))
      as (q & w & r & -> & Q & -> & R).
    assert (0 < slen s) as SP.
    { pose proof (slen_pos s). destruct (Z.eq_dec (slen s) 0) as [E|E]; [|lia].
      apply slen_0 in E. contradiction. }
    pose proof (slen_pos q).
    destruct (0 + slen s + slen q =? 0) eqn:Z0; [apply Z.eqb_eq in Z0; lia|].
    do 2 eexists. split; [reflexivity|]. rewrite slength_app. split; [lia|].
    intros L. assert (q = "") as -> by (destruct q; [reflexivity|simpl in L; lia]).
    inversion Q; subst. change (slen "") with 0. rewrite Z.pow_0_r. split; [|reflexivity].
    destruct neg; ring.
Qed.

Lemma exponent_first p e : exponent mark p e -> p = "" \/ exists c r, p = String c r /\ (c = mark \/ c = upper_of mark).
Proof. destruct 1 as [|c sg neg s v C SG P NE]; [auto|right]. exists c, (sg ++ s). auto. Qed.
End Exponent.

Lemma mark_e c : Ascii.eqb "e" (lower c) = true <-> c = "e"%char \/ c = upper_of "e".
Proof. apply lower_eq; [simpl; tauto|reflexivity]. Qed.
Lemma mark_p c : Ascii.eqb "p" (lower c) = true <-> c = "p"%char \/ c = upper_of "p".
Proof. apply lower_eq; [simpl; tauto|reflexivity]. Qed.

(** ** Words *)
Definition word (pat : string) : Prop :=
  each (fun p => In p (list_ascii_of_string "infty0xanepINFTY") /\ lower p = p) pat.

Lemma strip_ci_app pat w rest : word pat -> same_letters pat w -> strip_ci pat (w ++ rest) = Some rest.
Proof.
  intros W S; revert W; induction S as [|p c ps cs C S IH]; intros W; simpl; [reflexivity|].
  apply each_cons in W as ((I & L) & W).
  rewrite (proj2 (lower_eq p c I L) C). apply IH; exact W.
Qed.

Lemma strip_ci_sound pat s rest : word pat -> strip_ci pat s = Some rest ->
  exists w, s = w ++ rest /\ same_letters pat w.
Proof.
  revert s; induction pat as [|p pat IH]; intros s W H; simpl in H.
  - exists "". split; [destruct s; simpl in *; congruence|constructor].
  - apply each_cons in W as ((I & L) & W).
    destruct s as [|c s]; [discriminate|].
    destruct (Ascii.eqb p (lower c)) eqn:E; [|discriminate].
    destruct (IH s W H) as (w & -> & SL). exists (String c w). split; [reflexivity|].
    constructor; [apply lower_eq; assumption|exact SL].
Qed.

Ltac word_tac :=
  unfold word, each; cbn [list_ascii_of_string];
  repeat (apply Forall_cons; [split; [cbn [In list_ascii_of_string]; repeat first [left; reflexivity|right]|reflexivity]|]);
  apply Forall_nil.
Lemma word_inf : word "inf". Proof. word_tac. Qed.
Lemma word_infinity : word "infinity". Proof. word_tac. Qed.
Lemma word_nan : word "nan". Proof. word_tac. Qed.
Lemma word_0x : word "0x". Proof. word_tac. Qed.

Lemma same_letters_length pat w : same_letters pat w -> String.length w = String.length pat.
Proof. induction 1; simpl; congruence. Qed.

(** ** nan(...) *)
Lemma nan_char_test c : (c =? ")")%char = false ->
  (let n := N_of_ascii (lower c) in
   (((48 <=? n) && (n <=? 57)) || ((97 <=? n) && (n <=? 122)) || (n =? 95))%N) = true <-> nan_char c.
Proof.
  intros NP. unfold nan_char. split.
  - allbytes c; vm_compute; intros H; try discriminate; repeat (first [left; reflexivity | right]).
  - intros H. simpl in H. repeat (destruct H as [<-|H]; [vm_compute; reflexivity|]). destruct H.
Qed.
Lemma nan_char_close : ~ nan_char ")".
Proof. unfold nan_char. simpl. intros H. repeat (destruct H as [H|H]; [discriminate H|]). exact H. Qed.

Lemma skip_nan_app cs rest : each nan_char cs -> skip_nan_chars (cs ++ String ")" rest) = Some rest.
Proof.
  induction cs as [|c cs IH]; intros H; [reflexivity|].
  apply each_cons in H as (C & H). cbn [append skip_nan_chars].
  destruct (Ascii.eqb c ")") eqn:E.
  { apply Ascii.eqb_eq in E. subst. destruct (nan_char_close C). }
  pose proof (proj2 (nan_char_test c E) C) as T. cbv zeta in T |- *. rewrite T. apply IH; exact H.
Qed.
Lemma skip_nan_sound s rest : skip_nan_chars s = Some rest ->
  exists cs, s = cs ++ String ")" rest /\ each nan_char cs.
Proof.
  revert rest; induction s as [|c s IH]; intros rest H; [discriminate|]. cbn [skip_nan_chars] in H.
  destruct (Ascii.eqb c ")") eqn:E.
  { apply Ascii.eqb_eq in E. subst. exists "". split; [simpl; congruence|apply each_nil]. }
  pose proof (nan_char_test c E) as T. cbv zeta in H, T.
  match type of H with (if ?b then _ else _) = _ => destruct b eqn:B; [|discriminate] end.
  destruct (IH rest H) as (cs & -> & A). exists (String c cs). split; [reflexivity|].
  apply each_cons. split; [apply T; reflexivity|exact A].
Qed.

(** ** The number scanner *)
Definition scan_unsigned (neg : bool) (r : string) : option (literal * string) :=
  match strip_ci "infinity" r with
  | Some rest => Some (LInf neg, rest)
  | None =>
  match strip_ci "inf" r with
  | Some rest => Some (LInf neg, rest)
  | None =>
  match strip_ci "nan" r with
  | Some rest =>
      match rest with
      | String c r' => if Ascii.eqb c "(" then
                         match skip_nan_chars r' with
                         | Some r'' => Some (LNan, r'')
                         | None => Some (LNan, rest)
                         end
                       else Some (LNan, rest)
      | "" => Some (LNan, rest)
      end
  | None =>
      let dec :=
        let '(v, fr, cnt, rest) := read_mantissa digit 10 r in
        if cnt =? 0 then None
        else let '(e, rest) := read_exponent "e" rest in
             Some (LDec neg v (e - fr), rest) in
      match strip_ci "0x" r with
      | Some h =>
          let '(v, fr, cnt, rest) := read_mantissa hexdigit 16 h in
          if cnt =? 0 then dec
          else let '(e, rest) := read_exponent "p" rest in
               Some (LHex neg v (e - 4 * fr), rest)
      | None => dec
      end
  end end end.
Lemma scan_double_eq s :
  scan_double s = let '(neg, r) := read_sign (skip_space s) in scan_unsigned neg r.
Proof. reflexivity. Qed.

Definition scan_dec (neg : bool) (r : string) : option (literal * string) :=
  let '(v, fr, cnt, rest) := read_mantissa digit 10 r in
  if cnt =? 0 then None
  else let '(e, rest) := read_exponent "e" rest in Some (LDec neg v (e - fr), rest).
Definition scan_hex (neg : bool) (h : string) : option (literal * string) :=
  let '(v, fr, cnt, rest) := read_mantissa hexdigit 16 h in
  if cnt =? 0 then None
  else let '(e, rest) := read_exponent "p" rest in Some (LHex neg v (e - 4 * fr), rest).

Lemma scan_dec_sound neg s l rest : scan_dec neg s = Some (l, rest) ->
  exists u, s = u ++ rest /\ unsigned_numeral neg u l.
Proof.
  unfold scan_dec. destruct (read_mantissa digit 10 s) as [[[v fr] cnt] r] eqn:M.
  destruct (Z.eqb_spec cnt 0) as [|N]; [discriminate|].
  destruct (read_exponent "e" r) as (e & r2) eqn:X. intros E.
  assert (l = LDec neg v (e - fr)) as -> by congruence. assert (rest = r2) as -> by congruence.
  destruct (read_mantissa_sound digit dec_digit 10 digit_dec _ _ _ _ _ M N) as (p & -> & P).
  destruct (read_exponent_sound "e" mark_e _ _ _ X) as (q & -> & Q).
  exists (p ++ q). split; [rewrite sapp_assoc; reflexivity|]. constructor; assumption.
Qed.

Lemma scan_hex_sound neg z s l rest : same_letters "0x" z -> scan_hex neg s = Some (l, rest) ->
  exists u, z ++ s = u ++ rest /\ unsigned_numeral neg u l.
Proof.
  intros SL. unfold scan_hex. destruct (read_mantissa hexdigit 16 s) as [[[v fr] cnt] r] eqn:M.
  destruct (Z.eqb_spec cnt 0) as [|N]; [discriminate|].
  destruct (read_exponent "p" r) as (e & r2) eqn:X. intros E.
  assert (l = LHex neg v (e - 4 * fr)) as -> by congruence. assert (rest = r2) as -> by congruence.
  destruct (read_mantissa_sound hexdigit hex_digit 16 hexdigit_hex _ _ _ _ _ M N) as (p & -> & P).
  destruct (read_exponent_sound "p" mark_p _ _ _ X) as (q & -> & Q).
  exists (z ++ p ++ q). split; [rewrite !sapp_assoc; reflexivity|]. constructor; assumption.
Qed.

Lemma scan_unsigned_tail neg s :
  strip_ci "infinity" s = None -> strip_ci "inf" s = None -> strip_ci "nan" s = None ->
  scan_unsigned neg s =
  match strip_ci "0x" s with
  | Some h => match scan_hex neg h with Some x => Some x | None => scan_dec neg s end
  | None => scan_dec neg s
  end.
Proof.
  intros A B C. unfold scan_unsigned. rewrite A, B, C. fold (scan_dec neg s).
  destruct (strip_ci "0x" s) as [h|]; [|reflexivity].
  unfold scan_hex. destruct (read_mantissa hexdigit 16 h) as [[[v fr] cnt] r].
  destruct (cnt =? 0); [reflexivity|]. destruct (read_exponent "p" r). reflexivity.
Qed.

Lemma scan_unsigned_sound neg s l rest : scan_unsigned neg s = Some (l, rest) ->
  exists u, s = u ++ rest /\ unsigned_numeral neg u l.
Proof.
  intros H. destruct (strip_ci "infinity" s) as [r|] eqn:A.
  { unfold scan_unsigned in H. rewrite A in H.
    destruct (strip_ci_sound _ _ _ word_infinity A) as (w & -> & W). exists w.
    assert (l = LInf neg /\ rest = r) as (-> & ->) by (split; congruence).
    split; [reflexivity|]. constructor. auto. }
  destruct (strip_ci "inf" s) as [r|] eqn:B.
  { unfold scan_unsigned in H. rewrite A, B in H.
    destruct (strip_ci_sound _ _ _ word_inf B) as (w & -> & W). exists w.
    assert (l = LInf neg /\ rest = r) as (-> & ->) by (split; congruence).
    split; [reflexivity|]. constructor. auto. }
  destruct (strip_ci "nan" s) as [r|] eqn:C.
  { unfold scan_unsigned in H. rewrite A, B, C in H.
    destruct (strip_ci_sound _ _ _ word_nan C) as (w & -> & W).
    assert (Hn : Some (LNan, r) = Some (l, rest) ->
      exists u, w ++ r = u ++ rest /\ unsigned_numeral neg u l).
    { intros E. exists w. assert (l = LNan /\ rest = r) as (-> & ->) by (split; congruence).
      split; [reflexivity|]. constructor. exact W. }
    destruct r as [|c r']; [exact (Hn H)|].
    destruct (Ascii.eqb_spec c "(") as [->|]; [|exact (Hn H)].
    destruct (skip_nan_chars r') as [r''|] eqn:K; [|exact (Hn H)].
    destruct (skip_nan_sound _ _ K) as (cs & -> & CS).
    assert (l = LNan /\ rest = r'') as (-> & ->) by (split; congruence).
    exists (w ++ "(" ++ cs ++ ")"). split; [|constructor; assumption].
    rewrite !sapp_assoc. reflexivity. }
  rewrite (scan_unsigned_tail neg s A B C) in H.
  destruct (strip_ci "0x" s) as [h|] eqn:D; [|exact (scan_dec_sound _ _ _ _ H)].
  destruct (scan_hex neg h) as [[l' r']|] eqn:X; [|exact (scan_dec_sound _ _ _ _ H)].
  destruct (strip_ci_sound _ _ _ word_0x D) as (z & -> & W).
  apply scan_hex_sound; [exact W|]. congruence.
Qed.

Definition reads_at_least (o : option (literal * string)) (l : literal) (rest : string) : Prop :=
  exists l' rest', o = Some (l', rest') /\
    (String.length rest' <= String.length rest)%nat /\
    (String.length rest' = String.length rest -> l' = l /\ rest' = rest).

Lemma scan_dec_complete neg m v fr e x rest : mantissa dec_digit 10 m v fr -> exponent "e" e x ->
  reads_at_least (scan_dec neg ((m ++ e) ++ rest)) (LDec neg v (x - fr)) rest.
Proof.
  intros M X. unfold scan_dec. rewrite sapp_assoc.
  destruct (read_mantissa_complete digit dec_digit 10 digit_dec eq_refl _ _ _ (e ++ rest) M)
    as (v' & fr' & cnt' & r' & -> & CP & L & EQ & ST).
  destruct (Z.eqb_spec cnt' 0) as [|_]; [lia|].
  destruct (exponent_first "e" _ _ X) as [->|(c & r & -> & C)].
  - simpl in *. inversion X; subst.
    destruct (read_exponent "e" r') as (e' & r2) eqn:XE.
    destruct (read_exponent_sound "e" mark_e _ _ _ XE) as (q & -> & Q).
    exists (LDec neg v' (e' - fr')), r2. split; [reflexivity|].
    rewrite slength_app in *. split; [lia|]. intros LE.
    assert (q = "") as -> by (destruct q; [reflexivity|simpl in L; lia]).
    inversion Q; subst. destruct EQ as (-> & -> & EE); [simpl; lia|]. simpl in EE. auto.
  - assert (r' = String c r ++ rest) as ->.
    { apply ST. cbn [append]. destruct C as [-> | ->]; split; vm_compute; congruence. }
    destruct EQ as (-> & -> & _); [reflexivity|].
    destruct (read_exponent_complete "e" mark_e _ _ rest X) as (e' & r2 & -> & L2 & EQ2).
    exists (LDec neg v (e' - fr)), r2. split; [reflexivity|]. split; [exact L2|].
    intros LE. destruct (EQ2 LE) as (-> & ->). auto.
Qed.

Lemma scan_hex_complete neg m v fr e x rest : mantissa hex_digit 16 m v fr -> exponent "p" e x ->
  reads_at_least (scan_hex neg ((m ++ e) ++ rest)) (LHex neg v (x - 4 * fr)) rest.
Proof.
  intros M X. unfold scan_hex. rewrite sapp_assoc.
  destruct (read_mantissa_complete hexdigit hex_digit 16 hexdigit_hex eq_refl _ _ _ (e ++ rest) M)
    as (v' & fr' & cnt' & r' & -> & CP & L & EQ & ST).
  destruct (Z.eqb_spec cnt' 0) as [|_]; [lia|].
  destruct (exponent_first "p" _ _ X) as [->|(c & r & -> & C)].
  - simpl in *. inversion X; subst.
    destruct (read_exponent "p" r') as (e' & r2) eqn:XE.
    destruct (read_exponent_sound "p" mark_p _ _ _ XE) as (q & -> & Q).
    exists (LHex neg v' (e' - 4 * fr')), r2. split; [reflexivity|].
    rewrite slength_app in *. split; [lia|]. intros LE.
    assert (q = "") as -> by (destruct q; [reflexivity|simpl in L; lia]).
    inversion Q; subst. destruct EQ as (-> & -> & EE); [simpl; lia|]. simpl in EE. auto.
  - assert (r' = String c r ++ rest) as ->.
    { apply ST. cbn [append]. destruct C as [-> | ->]; split; vm_compute; congruence. }
    destruct EQ as (-> & -> & _); [reflexivity|].
    destruct (read_exponent_complete "p" mark_p _ _ rest X) as (e' & r2 & -> & L2 & EQ2).
    exists (LHex neg v (e' - 4 * fr)), r2. split; [reflexivity|]. split; [exact L2|].
    intros LE. destruct (EQ2 LE) as (-> & ->). auto.
Qed.

(** The first characters of the kinds of numbers. *)
Lemma strip_first p pat c s : Ascii.eqb p (lower c) = false -> strip_ci (String p pat) (String c s) = None.
Proof. intros H. simpl. rewrite H. reflexivity. Qed.

Lemma dec_first_no_word c s : c = "."%char \/ (exists d, digit c = Some d) ->
  strip_ci "infinity" (String c s) = None /\ strip_ci "inf" (String c s) = None /\
  strip_ci "nan" (String c s) = None.
Proof.
  intros H. assert (Ascii.eqb "i" (lower c) = false /\ Ascii.eqb "n" (lower c) = false) as (A & B).
  { destruct H as [->|(d & D)]; [split; reflexivity|].
    revert D. allbytes c; vm_compute; intros D; try discriminate; split; reflexivity. }
  repeat split; apply strip_first; assumption.
Qed.

Lemma same_letters_first p ps w : same_letters (String p ps) w ->
  exists c r, w = String c r /\ (c = p \/ c = upper_of p).
Proof. inversion 1; subst. eauto. Qed.

Lemma scan_unsigned_complete neg u l rest : unsigned_numeral neg u l ->
  reads_at_least (scan_unsigned neg (u ++ rest)) l rest.
Proof.
  destruct 1 as [m v fr e x M X|z m v fr e x Zx M X|w W|w W|w cs W CS].
  - destruct (mantissa_first digit dec_digit 10 digit_dec _ _ _ M) as (c & r & Em & C).
    assert (strip_ci "infinity" ((m ++ e) ++ rest) = None /\ strip_ci "inf" ((m ++ e) ++ rest) = None /\
            strip_ci "nan" ((m ++ e) ++ rest) = None) as (A & B & D).
    { rewrite Em. cbn [append]. apply dec_first_no_word; exact C. }
    rewrite (scan_unsigned_tail neg _ A B D). clear A B D.
    pose proof (scan_dec_complete neg m v fr e x rest M X) as R.
    destruct (strip_ci "0x" ((m ++ e) ++ rest)) as [h|] eqn:S0; [|exact R].
    destruct (scan_hex neg h) as [[l' r']|] eqn:SH; [|exact R].
    (* then m ++ e = "0" and strictly more is read *)
    destruct (strip_ci_sound _ _ _ word_0x S0) as (z & Ez & Wz).
    destruct (scan_hex_sound neg z h l' r' Wz SH) as (u' & Eu & U').
    (* length of what scan_hex leaves *)
    assert (HL : (String.length r' < String.length h)%nat).
    { unfold scan_hex in SH. destruct (read_mantissa hexdigit 16 h) as [[[v1 fr1] cnt1] r1] eqn:MM.
      destruct (Z.eqb_spec cnt1 0) as [|NN]; [discriminate|].
      destruct (read_mantissa_sound hexdigit hex_digit 16 hexdigit_hex _ _ _ _ _ MM NN) as (p & -> & P).
      destruct (mantissa_first hexdigit hex_digit 16 hexdigit_hex _ _ _ P) as (c1 & t1 & -> & _).
      destruct (read_exponent "p" r1) as (e1 & r2) eqn:XE.
      destruct (read_exponent_sound "p" mark_p _ _ _ XE) as (q & -> & Q).
      assert (r' = r2) as -> by congruence. cbn [append String.length]. rewrite !slength_app. lia. }
    inversion Wz as [|p0 c0 ps0 cs0 C0 W1]; subst. inversion W1 as [|p1 c1 ps1 cs1 C1 W2]; subst.
    inversion W2; subst. cbn [append] in Ez.
    (* second character is x or X, so m ++ e has length 1 *)
    assert (LM : (String.length (String c r ++ e) <= 1)%nat).
    { cbn [append] in Ez |- *. injection Ez as Ec Er. destruct r as [|c2 r2].
      - simpl in Er |- *. destruct (exponent_first "e" _ _ X) as [->|(ce & re & -> & Ce)]; [simpl; lia|].
        exfalso. simpl in Er. injection Er as -> _.
        destruct Ce as [-> | ->], C1 as [C1 | C1]; vm_compute in C1; discriminate.
      - exfalso. simpl in Er. injection Er as -> _.
        assert (Hc : digit c1 <> None \/ c1 = "."%char).
        { pose proof (mantissa_each digit dec_digit 10 digit_dec _ _ _ M) as A.
          apply each_cons in A as (_ & A). apply each_cons in A as (A & _). exact A. }
        destruct Hc as [Hc|Hc]; [apply Hc|]; destruct C1 as [-> | ->]; vm_compute in *; congruence. }
    exists l', r'. split; [reflexivity|].
    assert (TL : (String.length ((String c r ++ e) ++ rest) = 2 + String.length h)%nat)
      by (cbn [append]; rewrite Ez; reflexivity).
    rewrite slength_app in TL. split; [lia|]. intros; lia.
  - pose proof (scan_hex_complete neg m v fr e x rest M X) as R.
    assert (E0 : exists c r, z = String c r /\ c = "0"%char).
    { destruct (same_letters_first _ _ _ Zx) as (c & r & -> & C). exists c, r. split; [reflexivity|].
      destruct C as [-> | ->]; reflexivity. }
    destruct E0 as (c & r & Ez & ->).
    assert (strip_ci "infinity" ((z ++ m ++ e) ++ rest) = None /\ strip_ci "inf" ((z ++ m ++ e) ++ rest) = None /\
            strip_ci "nan" ((z ++ m ++ e) ++ rest) = None) as (A & B & D).
    { rewrite Ez. cbn [append]. apply dec_first_no_word. right. exists 0. reflexivity. }
    rewrite (scan_unsigned_tail neg _ A B D). clear A B D.
    rewrite sapp_assoc, (strip_ci_app "0x" z _ word_0x Zx).
    destruct R as (l' & r' & -> & R). exists l', r'. auto.
  - destruct W as [W|W].
    + unfold scan_unsigned. destruct (strip_ci "infinity" (w ++ rest)) as [r|] eqn:A.
      { exists (LInf neg), r. split; [reflexivity|].
        destruct (strip_ci_sound _ _ _ word_infinity A) as (w' & E & W').
        apply same_letters_length in W, W'.
        assert (T : String.length (w ++ rest) = String.length (w' ++ r)) by congruence.
        rewrite !slength_app, W, W' in T. simpl in T. split; [lia|]. intros; lia. }
      rewrite (strip_ci_app "inf" w rest word_inf W). exists (LInf neg), rest. auto.
    + unfold scan_unsigned. rewrite (strip_ci_app "infinity" w rest word_infinity W).
      exists (LInf neg), rest. auto.
  - destruct (same_letters_first _ _ _ W) as (c & r & E & C).
    assert (Ascii.eqb "i" (lower c) = false) as NI by (destruct C as [-> | ->]; reflexivity).
    assert (strip_ci "infinity" (w ++ rest) = None) as A by (subst w; apply strip_first; exact NI).
    assert (strip_ci "inf" (w ++ rest) = None) as B by (subst w; apply strip_first; exact NI).
    unfold scan_unsigned. rewrite A, B, (strip_ci_app "nan" w rest word_nan W).
    destruct rest as [|c' r']; [exists LNan, ""; auto|].
    destruct (Ascii.eqb_spec c' "(") as [->|]; [|exists LNan, (String c' r'); auto].
    destruct (skip_nan_chars r') as [r''|] eqn:K; [|exists LNan, (String "(" r'); auto].
    destruct (skip_nan_sound _ _ K) as (cs & -> & CS).
    exists LNan, r''. split; [reflexivity|]. cbn [String.length]. rewrite slength_app. cbn [String.length].
    split; [lia|]. intros; lia.
  - destruct (same_letters_first _ _ _ W) as (c & r & E & C).
    assert (Ascii.eqb "i" (lower c) = false) as NI by (destruct C as [-> | ->]; reflexivity).
    rewrite sapp_assoc.
    assert (A : strip_ci "infinity" (w ++ ("(" ++ cs ++ ")") ++ rest) = None) by (subst w; apply strip_first; exact NI).
    assert (B : strip_ci "inf" (w ++ ("(" ++ cs ++ ")") ++ rest) = None) by (subst w; apply strip_first; exact NI).
    unfold scan_unsigned. rewrite A, B, (strip_ci_app "nan" w _ word_nan W).
    cbn [append]. rewrite Ascii.eqb_refl, sapp_assoc. cbn [append]. rewrite (skip_nan_app cs rest CS).
    exists LNan, rest. auto.
Qed.

(** Blanks *)
Lemma skip_space_app bl rest : each blank bl ->
  match rest with String c _ => ~ blank c | "" => True end ->
  skip_space (bl ++ rest) = rest.
Proof.
  induction bl as [|c bl IH]; intros B R; simpl.
  - destruct rest as [|c r]; [reflexivity|]. simpl. destruct (isspace c) eqn:E; [|reflexivity].
    apply isspace_blank in E. contradiction.
  - apply each_cons in B as (C & B). rewrite (proj2 (isspace_blank c) C). auto.
Qed.
Lemma skip_space_sound s : exists bl rest, s = bl ++ rest /\ each blank bl /\ skip_space s = rest /\
  match rest with String c _ => ~ blank c | "" => True end.
Proof.
  induction s as [|c s IH].
  - exists "", "". repeat split. constructor.
  - simpl. destruct (isspace c) eqn:E.
    + destruct IH as (bl & rest & -> & B & Er & R). exists (String c bl), rest. repeat split; auto.
      apply each_cons. split; [apply isspace_blank; exact E|exact B].
    + exists "", (String c s). repeat split; [constructor|]. intros H. apply isspace_blank in H. congruence.
Qed.

Lemma unsigned_first neg u l : unsigned_numeral neg u l ->
  exists c r, u = String c r /\ ~ blank c /\ c <> "-"%char /\ c <> "+"%char.
Proof.
  assert (G : forall c : ascii, (c = "."%char \/ (exists d, digit c = Some d) \/ c = "i"%char \/
     c = upper_of "i" \/ c = "n"%char \/ c = upper_of "n") -> ~ blank c /\ c <> "-"%char /\ c <> "+"%char).
  { intros c H. rewrite <- isspace_blank.
    destruct H as [-> |[(d & D)|[->|[->|[-> | ->]]]]]; try (vm_compute; repeat split; congruence).
    revert D. allbytes c; vm_compute; intros D; try discriminate; repeat split; congruence. }
  destruct 1 as [m v fr e x M X|z m v fr e x Zx M X|w W|w W|w cs W CS].
  - destruct (mantissa_first digit dec_digit 10 digit_dec _ _ _ M) as (c & r & -> & C).
    exists c, (r ++ e). split; [reflexivity|]. apply G. tauto.
  - destruct (same_letters_first _ _ _ Zx) as (c & r & -> & C).
    exists c, (r ++ m ++ e). split; [reflexivity|]. apply G. right. left. exists 0.
    destruct C as [-> | ->]; reflexivity.
  - assert (exists c r, w = String c r /\ (c = "i"%char \/ c = upper_of "i")) as (c & r & -> & C)
      by (destruct W as [W|W]; exact (same_letters_first _ _ _ W)).
    exists c, r. split; [reflexivity|]. apply G. tauto.
  - destruct (same_letters_first _ _ _ W) as (c & r & -> & C).
    exists c, r. split; [reflexivity|]. apply G. tauto.
  - destruct (same_letters_first _ _ _ W) as (c & r & -> & C).
    eexists c, _. split; [reflexivity|]. apply G. tauto.
Qed.

Lemma sign_nonblank sg neg c r : sign sg neg -> sg = String c r -> ~ blank c.
Proof.
  rewrite <- isspace_blank. destruct 1; intros E; try discriminate; injection E as <- <-; vm_compute; congruence.
Qed.

Lemma scan_double_sound s l rest : scan_double s = Some (l, rest) ->
  exists p, s = p ++ rest /\ numeral p l.
Proof.
  rewrite scan_double_eq. destruct (skip_space_sound s) as (bl & r & -> & B & -> & _).
  destruct (read_sign_sound r) as (sg & neg & r' & -> & SG & ->). intros H.
  destruct (scan_unsigned_sound _ _ _ _ H) as (u & -> & U).
  exists (bl ++ sg ++ u). split; [rewrite !sapp_assoc; reflexivity|].
  econstructor; eassumption.
Qed.

Lemma scan_double_complete p l rest : numeral p l -> reads_at_least (scan_double (p ++ rest)) l rest.
Proof.
  destruct 1 as [bl sg neg u l B SG U]. rewrite scan_double_eq, !sapp_assoc.
  destruct (unsigned_first _ _ _ U) as (c & r & Eu & NB & NM & NP).
  rewrite skip_space_app; [|exact B|].
  - rewrite (read_sign_app sg neg) by (solve [exact SG|rewrite Eu; simpl; auto]).
    apply scan_unsigned_complete; exact U.
  - destruct sg as [|c' sg'] eqn:E; [rewrite Eu; exact NB|]. simpl.
    exact (sign_nonblank _ _ c' sg' SG eq_refl).
Qed.

(** The scanner finds the longest numeral prefix, as the C standard asks. *)
Lemma scan_double_longest s l rest :
  scan_double s = Some (l, rest) <-> exists p, longest_numeral s p l rest.
Proof.
  split.
  - intros H. destruct (scan_double_sound s l rest H) as (p & E & P). exists p. split; [exact E|]. split; [exact P|].
    intros p' l' rest' E' P'.
    destruct (scan_double_complete p' l' rest' P') as (l2 & r2 & H2 & L & _).
    rewrite <- E', H in H2. assert (rest = r2) as <- by congruence.
    assert (T : String.length (p ++ rest) = String.length (p' ++ rest')) by congruence.
    rewrite !slength_app in T. lia.
  - intros (p & E & P & LG).
    destruct (scan_double_complete p l rest P) as (l2 & r2 & H2 & L & EQ).
    rewrite <- E in H2. destruct (scan_double_sound _ _ _ H2) as (p2 & E2 & P2).
    pose proof (LG _ _ _ E2 P2) as L2.
    assert (T : String.length (p ++ rest) = String.length (p2 ++ r2)) by congruence.
    rewrite !slength_app in T. destruct EQ as (-> & ->); [lia|]. exact H2.
Qed.

Lemma scan_double_none s :
  scan_double s = None <-> (forall p l rest, s = p ++ rest -> ~ numeral p l).
Proof.
  split.
  - intros H p l rest -> P. destruct (scan_double_complete p l rest P) as (l2 & r2 & H2 & _). congruence.
  - intros H. destruct (scan_double s) as [[l rest]|] eqn:E; [|reflexivity].
    destruct (scan_double_sound _ _ _ E) as (p & Ep & P). exfalso. exact (H p l rest Ep P).
Qed.
