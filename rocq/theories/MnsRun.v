(** * MnsRun: what one iteration of ecdf1_mns2016 does to the coefficients, in any arithmetic. *)
From Coq Require Import ZArith List Bool Lia String.
From Verif Require Import Base Num Hoare Common Ecdf1Mns.
Import List. Import ListNotations.
Local Open Scope Z_scope.

Section Run.
Context {N : num} (E : env N) (LD : long_double N).
Notation T := (car N).
Notation F := (ld LD).
Notation gf := (@get (car F) n0).
Context {thr : exn -> Prop} {abt : Prop}.
Notation WP := (wp thr abt).
Variable n : nat.

(** the coefficients m and a of a polynomial of degree k *)
Definition repr (p : ptm F) (k : nat) (m a : nat -> car F) : Prop :=
  degree p = Z.of_nat k /\ size (mult p) = Z.of_nat n + 2 /\ size (addc p) = Z.of_nat n + 2 /\
  (forall i, (i <= k)%nat -> gf (mult p) (Z.of_nat i) = m i /\ gf (addc p) (Z.of_nat i) = a i).

Definition m_int (m : nat -> car F) (i : nat) : car F :=
  match i with O => n0 | S j => n_div (m j) (n_of_Z (Z.of_nat (S j))) end.
Definition a_int (a : nat -> car F) (c : car F) (i : nat) : car F :=
  match i with O => n0 | S O => c | S j => a j end.
Definition m_set (m : nat -> car F) (v : car F) (i : nat) : car F := match i with O => v | _ => m i end.
Fixpoint evalf (m a : nat -> car F) (x : car F) (k : nat) : car F :=
  match k with
  | O => n0
  | S i => n_add (evalf m a x i) (n_mul (m i) (n_pow (n_add x (a i)) (Z.of_nat i)))
  end.
Fixpoint maxf (m : nat -> car F) (k : nat) : car F :=
  match k with O => m O | S i => if n_lt (maxf m i) (m i) then m i else maxf m i end.

Lemma run_integrate p k m a (Q : ptm F -> Prop) : repr p k m a -> (k <= n)%nat ->
  (forall p', repr p' (S k) (m_int m) (a_int a n0) -> Q p') -> WP (integrate p) Q.
Proof.
  intros (Hd & Hsm & Hsa & Hg) Hk HQ. unfold integrate. rewrite Hd. apply wp_bind.
  apply wp_for_down with (P := fun j ma =>
    @size (car F) (fst ma) = Z.of_nat n + 2 /\ @size (car F) (snd ma) = Z.of_nat n + 2 /\
    (forall i, (i <= k)%nat -> Z.of_nat i <= j -> gf (fst ma) (Z.of_nat i) = m i /\ gf (snd ma) (Z.of_nat i) = a i) /\
    (forall i, (i <= k)%nat -> j < Z.of_nat (S i) ->
       gf (fst ma) (Z.of_nat (S i)) = n_div (m i) (n_of_Z (Z.of_nat (S i))) /\ gf (snd ma) (Z.of_nat (S i)) = a i)).
  - cbn [fst snd]. repeat split; auto; try (apply Hg; lia); lia.
  - intros j [ml al] Hj (Hs1 & Hs2 & Hlo & Hhi). cbn [fst snd] in *.
    assert (Hidx : Z.of_nat (Z.to_nat (j - 1)) = j - 1) by lia.
    destruct (Hlo (Z.to_nat (j - 1))) as [Hm Ha]; [lia|lia|]. rewrite Hidx in Hm, Ha.
    apply wp_bind, (wp_rd n0); [lia|]. rewrite Hm. apply wp_bind, wp_wr; [lia|].
    apply wp_bind, (wp_rd n0); [lia|]. rewrite Ha. apply wp_bind, wp_wr; [lia|]. apply wp_ok. cbn [fst snd].
    rewrite !size_upd. split; [auto|]. split; [auto|]. split.
    + intros i Hi Hij. rewrite !get_upd by lia. destruct (Z.eqb_spec j (Z.of_nat i)); [lia|]. apply Hlo; lia.
    + intros i Hi Hij. rewrite !get_upd by lia. destruct (Z.eqb_spec j (Z.of_nat (S i))) as [->|Hne].
      * replace (Z.to_nat (Z.of_nat (S i) - 1)) with i by lia. auto.
      * apply Hhi; lia.
  - intros [ml al] (Hs1 & Hs2 & Hlo & Hhi). cbn [fst snd] in *.
    apply wp_bind, wp_wr; [lia|]. apply wp_bind, wp_wr; [rewrite size_upd; lia|].
    apply wp_bind, wp_wr; [lia|]. apply wp_ok. apply HQ. unfold repr. cbn [degree mult addc].
    rewrite !size_upd. split; [lia|]. split; [auto|]. split; [auto|].
    intros i Hi. rewrite !get_upd by (rewrite ?size_upd; lia).
    destruct i as [|i]; [split; reflexivity|].
    destruct (Hhi i) as [H1 H2]; [lia|lia|]. rewrite H1, H2.
    destruct (Z.eqb_spec 0 (Z.of_nat (S i))); [lia|].
    destruct i as [|i]; [split; reflexivity|].
    destruct (Z.eqb_spec 1 (Z.of_nat (S (S i)))); [lia|]. split; reflexivity.
Qed.

Lemma run_check_degree p k m a d (Q : unit -> Prop) : repr p k m a -> 0 <= d <= Z.of_nat k -> Q tt ->
  WP (check_degree E p d) Q.
Proof.
  intros (Hd & _) Hk HQ. unfold check_degree. rewrite Hd.
  apply wp_bind, wp_cassert_true; [apply Z.leb_le; lia|]. apply wp_cassert_true; [apply Z.leb_le; lia|]. exact HQ.
Qed.

Lemma run_evaluate p k m a x (Q : car F -> Prop) : repr p k m a -> (k <= n + 1)%nat ->
  Q (evalf m a x (S k)) -> WP (evaluate p x) Q.
Proof.
  intros (Hd & Hsm & Hsa & Hg) Hk HQ. unfold evaluate. rewrite Hd.
  apply wp_for with (P := fun j r => r = evalf m a x (Z.to_nat j)).
  - reflexivity.
  - intros j r Hj ->. assert (Hjj : Z.of_nat (Z.to_nat j) = j) by lia.
    destruct (Hg (Z.to_nat j)) as [H1 H2]; [lia|]. rewrite Hjj in H1, H2.
    apply wp_bind, (wp_rd n0); [lia|]. apply wp_bind, (wp_rd n0); [lia|]. rewrite H1, H2. apply wp_ok.
    replace (Z.to_nat (j + 1)) with (S (Z.to_nat j)) by lia. cbn [evalf]. rewrite Hjj. reflexivity.
  - intros r ->. replace (Z.to_nat (Z.max 0 (Z.of_nat k + 1))) with (S k) by lia. exact HQ.
Qed.

Lemma run_set_add p k m a v (Q : ptm F -> Prop) : repr p (S k) m (a_int a n0) -> (k <= n)%nat ->
  (forall p', repr p' (S k) m (a_int a v) -> Q p') ->
  WP (set_additive_coefficient E p 1 v) Q.
Proof.
  intros Hr Hk HQ. unfold set_additive_coefficient.
  apply wp_bind. eapply run_check_degree; [exact Hr|lia|].
  destruct Hr as (Hd & Hsm & Hsa & Hg). apply wp_bind, wp_wr; [lia|]. apply wp_ok, HQ.
  unfold repr. cbn [degree mult addc]. rewrite size_upd. repeat split; auto.
  - apply Hg; auto.
  - rewrite get_upd by lia. destruct (Hg i H) as [_ Ha]. destruct i as [|[|i]]; [exact Ha|reflexivity|].
    destruct (Z.eqb_spec 1 (Z.of_nat (S (S i)))); [lia|]. exact Ha.
Qed.

Lemma run_set_mult0 p k m a v (Q : ptm F -> Prop) : repr p k m a -> (k <= n + 1)%nat ->
  (forall p', repr p' k (m_set m v) a -> Q p') ->
  WP (set_multiplicative_coefficient E p 0 v) Q.
Proof.
  intros Hr Hk HQ. unfold set_multiplicative_coefficient.
  apply wp_bind. eapply run_check_degree; [exact Hr|lia|].
  destruct Hr as (Hd & Hsm & Hsa & Hg). apply wp_bind, wp_wr; [lia|]. apply wp_ok, HQ.
  unfold repr. cbn [degree mult addc]. rewrite size_upd. repeat split; auto.
  - rewrite get_upd by lia. destruct (Hg i H) as [Ha _]. destruct i as [|i]; [reflexivity|].
    destruct (Z.eqb_spec 0 (Z.of_nat (S i))); [lia|]. exact Ha.
  - apply Hg; auto.
Qed.

Lemma run_ldexp_all p k m a e (Q : ptm F -> Prop) : repr p k m a -> (k <= n + 1)%nat ->
  (forall p', repr p' k (fun i => n_ldexp (m i) e) a -> Q p') ->
  WP (ldexp_all_multiplicative_coefficients p e) Q.
Proof.
  intros (Hd & Hsm & Hsa & Hg) Hk HQ. unfold ldexp_all_multiplicative_coefficients. rewrite Hd.
  apply wp_bind.
  apply wp_for with (P := fun j l => @size (car F) l = Z.of_nat n + 2 /\
    forall i, (i <= k)%nat -> gf l (Z.of_nat i) = if Z.of_nat i <? j then n_ldexp (m i) e else m i).
  - split; auto. intros i Hi. destruct (Z.ltb_spec (Z.of_nat i) 0); [lia|]. apply Hg; auto.
  - intros j l Hj [Hs Hl]. assert (Hjj : Z.of_nat (Z.to_nat j) = j) by lia.
    pose proof (Hl (Z.to_nat j) ltac:(lia)) as H1. rewrite Hjj, Z.ltb_irrefl in H1.
    apply wp_bind, (wp_rd n0); [lia|]. rewrite H1. apply wp_wr; [lia|]. rewrite size_upd. split; auto.
    intros i Hi. rewrite get_upd by lia. destruct (Z.eqb_spec j (Z.of_nat i)) as [->|Hne].
    + destruct (Z.ltb_spec (Z.of_nat i) (Z.of_nat i + 1)); [|lia]. rewrite Nat2Z.id. reflexivity.
    + rewrite Hl by auto. destruct (Z.ltb_spec (Z.of_nat i) j), (Z.ltb_spec (Z.of_nat i) (j + 1)); auto; lia.
  - intros l [Hs Hl]. apply wp_ok, HQ. unfold repr. cbn [degree mult addc]. repeat split; auto.
    + rewrite Hl by auto. destruct (Z.ltb_spec (Z.of_nat i) (Z.max 0 (Z.of_nat k + 1))); [reflexivity|lia].
    + apply Hg; auto.
Qed.

Lemma run_get_mult p k m a d (Q : car F -> Prop) : repr p k m a -> (k <= n + 1)%nat -> (d <= k)%nat ->
  Q (m d) -> WP (get_multiplicative_coefficient E p (Z.of_nat d)) Q.
Proof.
  intros Hr Hk Hdk HQ. unfold get_multiplicative_coefficient. apply wp_bind.
  eapply run_check_degree; [exact Hr|lia|]. destruct Hr as (Hd & Hsm & Hsa & Hg).
  apply (wp_rd n0); [lia|]. destruct (Hg d Hdk) as [-> _]. exact HQ.
Qed.

Lemma run_max p k m a (Q : car F -> Prop) : repr p (S k) m a -> (k <= n)%nat ->
  Q (maxf m (S (S k))) -> WP (maximum_multiplicative_coefficient E p) Q.
Proof.
  intros Hr Hk HQ. unfold maximum_multiplicative_coefficient. pose proof Hr as (Hd & _). rewrite Hd.
  apply wp_bind, wp_cassert_true; [apply Z.leb_le; lia|].
  apply wp_bind. apply (run_get_mult p (S k) m a O); [exact Hr|lia|lia|].
  apply wp_for with (P := fun j r => r = maxf m (Z.to_nat j)); [reflexivity| |].
  - intros j t Hj ->. apply wp_bind. replace j with (Z.of_nat (Z.to_nat j)) at 1 by lia.
    apply (run_get_mult p (S k) m a (Z.to_nat j)); [exact Hr|lia|lia|]. apply wp_ok.
    replace (Z.to_nat (j + 1)) with (S (Z.to_nat j)) by lia. reflexivity.
  - intros r ->. replace (Z.to_nat (Z.max 0 (Z.of_nat (S k) + 1))) with (S (S k)) by lia. exact HQ.
Qed.

(** the coefficients after iteration k, before the exponents are adjusted *)
Definition next_a (bk : T) (a : nat -> car F) : nat -> car F := a_int a (widen LD (n_neg bk)).
Definition next_m (bk : T) (k : nat) (m a : nat -> car F) : nat -> car F :=
  m_set (m_int m) (n_neg (evalf (m_int m) (next_a bk a) (widen LD bk) (S (S k)))).

Lemma run_step (b : list T) k p delta m a (Q : ptm F * Z -> Prop) : size b = Z.of_nat n -> (k < n)%nat ->
  repr p k m a ->
  let m' := next_m (get n0 b (Z.of_nat k)) k m a in
  let a' := next_a (get n0 b (Z.of_nat k)) a in
  (forall p', repr p' (S k) m' a' ->
     (Z.rem (Z.of_nat k) 16 =? 0) && (n_frexp (maxf m' (S (S k))) <? 0) = false -> Q (p', delta)) ->
  (forall p', (Z.rem (Z.of_nat k) 16 =? 0) && (n_frexp (maxf m' (S (S k))) <? 0) = true ->
     let e := 0 - n_frexp (maxf m' (S (S k))) in
     repr p' (S k) (fun i => n_ldexp (m' i) e) a' -> Q (p', delta + e)) ->
  WP (mns_step E LD b (Z.of_nat k) (p, delta)) Q.
Proof.
  intros Hb Hk Hr m' a' HQ1 HQ2. unfold mns_step.
  apply wp_bind. eapply run_integrate; [exact Hr|lia|]. intros p1 Hr1.
  apply wp_bind. apply (wp_rd n0); [lia|].
  apply wp_bind. eapply run_set_add; [exact Hr1|lia|]. intros p2 Hr2.
  apply wp_bind. eapply run_evaluate; [exact Hr2|lia|].
  apply wp_bind. eapply run_set_mult0; [exact Hr2|lia|]. intros p3 Hr3.
  change NUM_ITERATIONS_BETWEEN_EXP_FIXES with 16.
  change (repr p3 (S k) m' a') in Hr3.
  destruct (Z.rem (Z.of_nat k) 16 =? 0) eqn:Er.
  - apply wp_bind. eapply run_max; [exact Hr3|lia|]. cbv zeta. unfold extract_exponent.
    destruct (n_frexp (maxf m' (S (S k))) <? 0) eqn:Ee.
    + apply wp_bind. eapply run_ldexp_all; [exact Hr3|lia|]. intros p4 Hr4. apply wp_ok. apply HQ2; [reflexivity|exact Hr4].
    + apply wp_ok. apply HQ1; [exact Hr3|reflexivity].
  - apply wp_ok. apply HQ1; [exact Hr3|reflexivity].
Qed.
End Run.
