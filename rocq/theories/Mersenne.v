(** * Mersenne: 2^127 - 1 is prime (Pocklington's criterion). *)
From Coq Require Import ZArith Znumtheory List Bool Lia Permutation.
Import ListNotations.
Local Open Scope Z_scope.

(** ** Trial division *)
Fixpoint no_divisor (k : nat) (d n : Z) : bool :=
  match k with
  | O => true
  | S k => if n mod d =? 0 then false else no_divisor k (d + 1) n
  end.

Lemma no_divisor_ok k : forall d n, no_divisor k d n = true ->
  forall e, d <= e < d + Z.of_nat k -> 0 < e -> ~ (e | n).
Proof.
  induction k as [|k IH]; intros d n H e He Pe D; [simpl in He; lia|].
  cbn [no_divisor] in H. destruct (Z.eqb_spec (n mod d) 0) as [|NZ]; [discriminate|].
  destruct (Z.eq_dec e d) as [->|NE].
  - apply NZ. apply Zdivide_mod. exact D.
  - refine (IH (d + 1) n H e _ Pe D). lia.
Qed.

Lemma prime_divisor n : 1 < n -> exists p, prime p /\ (p | n).
Proof.
  intros Hn. assert (H : 0 <= n) by lia. revert Hn. pattern n. apply Z_lt_induction; [|exact H].
  clear n H. intros n IH Hn. destruct (prime_dec n) as [P|NP]; [exists n; split; [exact P|apply Z.divide_refl]|].
  destruct (not_prime_divide n Hn NP) as (m & Hm & D). destruct (IH m) as (p & Pp & Dp); [lia|lia|].
  exists p. split; [exact Pp|]. apply Z.divide_trans with m; assumption.
Qed.

Lemma small_prime_divisor n : 1 < n -> ~ prime n -> exists p, prime p /\ (p | n) /\ p * p <= n.
Proof.
  intros Hn NP. destruct (not_prime_divide n Hn NP) as (m & Hm & D). destruct D as (c & E).
  assert (Hc : 1 < c) by nia.
  assert (L : exists e, 1 < e /\ (e | n) /\ e * e <= n).
  { destruct (Z_le_gt_dec m c).
    - exists m. split; [lia|]. split; [exists c; exact E|nia].
    - exists c. split; [lia|]. split; [exists m; lia|nia]. }
  destruct L as (e & He & De & Se). destruct (prime_divisor e He) as (p & Pp & Dp).
  exists p. split; [exact Pp|]. split; [apply Z.divide_trans with e; assumption|].
  apply Z.divide_pos_le in Dp; [|lia]. destruct Pp. nia.
Qed.

Lemma trial n k : 1 < n -> no_divisor k 2 n = true -> n < (2 + Z.of_nat k) * (2 + Z.of_nat k) -> prime n.
Proof.
  intros Hn T L. destruct (prime_dec n) as [P|NP]; [exact P|exfalso].
  destruct (small_prime_divisor n Hn NP) as (p & Pp & Dp & S). destruct Pp as [Hp _].
  refine (no_divisor_ok k 2 n T p _ _ Dp); nia.
Qed.

(** ** Fermat's little theorem *)
Definition prod (l : list Z) : Z := fold_right Z.mul 1 l.

Lemma prod_perm l l' : Permutation l l' -> prod l = prod l'.
Proof. induction 1; simpl; try lia; congruence. Qed.

Definition upto (p : Z) : list Z := map Z.of_nat (seq 1 (Z.to_nat (p - 1))).

Lemma in_upto p x : In x (upto p) <-> 1 <= x < p.
Proof.
  unfold upto. rewrite in_map_iff. split.
  - intros (k & <- & I). apply in_seq in I. lia.
  - intros H. exists (Z.to_nat x). split; [lia|]. apply in_seq. lia.
Qed.

Lemma prime_not_divides_prod p l : prime p -> (forall x, In x l -> ~ (p | x)) -> ~ (p | prod l).
Proof.
  intros Pp. induction l as [|x l IH]; simpl; intros H D.
  - apply Z.divide_1_r_nonneg in D; destruct Pp; lia.
  - apply prime_mult in D; [|exact Pp]. destruct D as [D|D]; [apply (H x); auto|apply IH; auto].
Qed.

Lemma prod_map_mul_mod p a l : 0 < p -> (prod (map (fun x => (a * x) mod p) l)) mod p = (a ^ Z.of_nat (length l) * prod l) mod p.
Proof.
  intros Hp. induction l as [|x l IH]; [reflexivity|].
  cbn [map length]. rewrite Nat2Z.inj_succ, Z.pow_succ_r by lia.
  change (prod ((a * x) mod p :: map (fun x => (a * x) mod p) l))
    with ((a * x) mod p * prod (map (fun x => (a * x) mod p) l)).
  change (prod (x :: l)) with (x * prod l).
  rewrite Z.mul_mod by lia. rewrite IH. rewrite Z.mod_mod by lia. rewrite <- Z.mul_mod by lia. f_equal. ring.
Qed.

Lemma fermat p a : prime p -> ~ (p | a) -> (a ^ (p - 1)) mod p = 1.
Proof.
  intros Pp Na. assert (Hp : 1 < p) by (destruct Pp; assumption).
  set (f := fun x => (a * x) mod p).
  assert (Perm : Permutation (map f (upto p)) (upto p)).
  { apply NoDup_Permutation_bis.
    - assert (Inj : forall l, NoDup l -> (forall x, In x l -> 1 <= x < p) -> NoDup (map f l)).
      { induction 1 as [|x l NI ND IH]; intros R; simpl; [constructor|]. constructor.
        - rewrite in_map_iff. intros (y & E & I). unfold f in E.
          assert (D : (p | a * (y - x))).
          { apply Z.mod_divide; [lia|]. rewrite Z.mul_sub_distr_l, Zminus_mod, E, Z.sub_diag. apply Z.mod_0_l. lia. }
          apply prime_mult in D; [|exact Pp]. destruct D as [D|D]; [auto|].
          pose proof (R x (or_introl eq_refl)). pose proof (R y (or_intror I)).
          destruct (Z.eq_dec y x) as [->|NE]; [auto|].
          destruct D as (q & Eq). assert (q = 0 \/ q <> 0) as [->|Nq] by lia; [lia|]. nia.
        - apply IH. intros. apply R. right. assumption. }
      apply Inj; [|apply in_upto]. unfold upto. apply FinFun.Injective_map_NoDup; [intros x y; lia|apply seq_NoDup].
    - rewrite map_length. lia.
    - intros y I. apply in_map_iff in I as (x & <- & I). apply in_upto in I. apply in_upto. unfold f.
      pose proof (Z.mod_pos_bound (a * x) p ltac:(lia)).
      assert ((a * x) mod p <> 0); [|lia]. intros E. apply Z.mod_divide in E; [|lia].
      apply prime_mult in E; [|exact Pp]. destruct E as [E|E]; [auto|]. apply Z.divide_pos_le in E; lia. }
  apply prod_perm in Perm. apply (f_equal (fun z => z mod p)) in Perm.
  unfold f in Perm. rewrite prod_map_mul_mod in Perm by lia.
  assert (L : Z.of_nat (length (upto p)) = p - 1).
  { unfold upto. rewrite map_length, seq_length. lia. }
  rewrite L in Perm.
  assert (D : (p | (a ^ (p - 1) - 1) * prod (upto p))).
  { apply Z.mod_divide; [lia|]. rewrite Z.mul_sub_distr_r, Z.mul_1_l, Zminus_mod, Perm, Z.sub_diag. apply Z.mod_0_l. lia. }
  apply prime_mult in D; [|exact Pp]. destruct D as [D|D].
  - destruct D as (q & E). replace (a ^ (p - 1)) with (1 + q * p) by lia. rewrite Z.mod_add by lia. apply Z.mod_small. lia.
  - exfalso. revert D. apply prime_not_divides_prod; [exact Pp|]. intros x I. apply in_upto in I. intros D.
    apply Z.divide_pos_le in D; lia.
Qed.

(** ** Powers modulo n *)
Fixpoint powm (a : Z) (e : positive) (n : Z) : Z :=
  match e with
  | xH => a mod n
  | xO e => let y := powm a e n in (y * y) mod n
  | xI e => let y := powm a e n in (((y * y) mod n) * a) mod n
  end.

Lemma powm_ok a e n : 0 < n -> powm a e n = (a ^ Zpos e) mod n.
Proof.
  intros Hn. induction e as [e IH|e IH|]; cbn [powm].
  - rewrite IH. rewrite <- Z.mul_mod, Z.mul_mod_idemp_l by lia. f_equal.
    replace (Z.pos e~1) with (Z.pos e + Z.pos e + 1) by lia. rewrite !Z.pow_add_r by lia. ring.
  - rewrite IH. rewrite <- Z.mul_mod by lia. f_equal.
    replace (Z.pos e~0) with (Z.pos e + Z.pos e) by lia. rewrite Z.pow_add_r by lia. ring.
  - f_equal. ring.
Qed.

(** ** Orders *)
Lemma pow_mod p a m : 0 < p -> 0 <= m -> a mod p = 1 mod p -> (a ^ m) mod p = 1 mod p.
Proof.
  intros Hp Hm H. pattern m. apply natlike_ind; [reflexivity| |exact Hm].
  intros x Hx IH. rewrite Z.pow_succ_r by lia. rewrite Z.mul_mod, IH, H by lia. rewrite <- Z.mul_mod by lia. reflexivity.
Qed.

(** If a^x = a^y = 1 (mod p) then a^gcd(x,y) = 1 (mod p). *)
Lemma pow_gcd p a x y : 0 < p -> 0 < x -> 0 < y ->
  (a ^ x) mod p = 1 mod p -> (a ^ y) mod p = 1 mod p -> (a ^ Z.gcd x y) mod p = 1 mod p.
Proof.
  intros Hp Hx Hy Ex Ey.
  (* u*x = gcd + w*y with u, w >= 0 *)
  assert (B : exists u w, 0 <= u /\ 0 <= w /\ u * x = Z.gcd x y + w * y).
  { destruct (Z.gcd_bezout x y (Z.gcd x y) eq_refl) as (u0 & v0 & E).
    set (t := Z.abs u0 + Z.abs v0).
    exists (u0 + t * y), (t * x - v0). split; [nia|]. split; [nia|]. nia. }
  destruct B as (u & w & Hu & Hw & E).
  assert (G : 0 <= Z.gcd x y) by apply Z.gcd_nonneg.
  assert (A1 : (a ^ (u * x)) mod p = 1 mod p).
  { rewrite Z.mul_comm, Z.pow_mul_r by lia. apply pow_mod; assumption. }
  assert (A2 : (a ^ (w * y)) mod p = 1 mod p).
  { rewrite Z.mul_comm, Z.pow_mul_r by lia. apply pow_mod; assumption. }
  rewrite E, Z.pow_add_r in A1 by nia. rewrite Z.mul_mod, A2, <- Z.mul_mod, Z.mul_1_r in A1 by lia. exact A1.
Qed.

(** One step of Pocklington's criterion. *)
Lemma pocklington_step n p q a : 1 < n -> prime p -> (p | n) -> prime q -> (q | n - 1) ->
  (a ^ (n - 1)) mod n = 1 -> Z.gcd (a ^ ((n - 1) / q) - 1) n = 1 -> (q | p - 1).
Proof.
  intros Hn Pp Dp Pq Dq E G. assert (Hp : 1 < p) by (destruct Pp; assumption).
  assert (Hq : 1 < q) by (destruct Pq; assumption).
  assert (Ep : (a ^ (n - 1)) mod p = 1 mod p).
  { rewrite (Zmod_div_mod p n); [rewrite E; reflexivity|lia|lia|exact Dp]. }
  destruct (Zdivide_dec q (p - 1)) as [D|ND]; [exact D|exfalso].
  assert (Na : ~ (p | a)).
  { intros D. assert ((p | a ^ (n - 1))).
    { replace (n - 1) with (Z.succ (n - 2)) by lia. rewrite Z.pow_succ_r by lia. apply Z.divide_mul_l. exact D. }
    apply Z.mod_divide in H; [|lia]. rewrite H in Ep. rewrite Z.mod_1_l in Ep; lia. }
  pose proof (fermat p a Pp Na) as F. rewrite <- (Z.mod_1_l p) in F at 2 by lia.
  destruct Dq as (m & Em).
  assert (Hm : 0 < m) by nia.
  pose proof (pow_gcd p a (n - 1) (p - 1) ltac:(lia) ltac:(lia) ltac:(lia) Ep F) as A.
  assert (D : (Z.gcd (n - 1) (p - 1) | m)).
  { apply Gauss with q.
    - rewrite Z.mul_comm, <- Em. apply Z.gcd_divide_l.
    - apply rel_prime_sym. apply prime_rel_prime; [exact Pq|]. intros D. apply ND.
      apply Z.divide_trans with (Z.gcd (n - 1) (p - 1)); [exact D|apply Z.gcd_divide_r]. }
  destruct D as (k & Ek). pose proof (Z.gcd_nonneg (n - 1) (p - 1)) as Gn.
  assert (Hk : 0 <= k) by nia.
  assert (A' : (a ^ m) mod p = 1 mod p).
  { rewrite Ek, Z.mul_comm, Z.pow_mul_r by lia. apply pow_mod; [lia|lia|exact A]. }
  replace ((n - 1) / q) with m in G by (rewrite Em; rewrite Z.div_mul; lia).
  assert (D : (p | a ^ m - 1)).
  { apply Z.mod_divide; [lia|]. rewrite Zminus_mod, A', Z.sub_diag. apply Z.mod_0_l. lia. }
  assert (D1 : (p | 1)) by (rewrite <- G; apply Z.gcd_greatest; assumption).
  apply Z.divide_1_r_nonneg in D1; lia.
Qed.

(** The condition of [pocklington_step], as a computation. *)
Lemma gcd_powm a e n : 1 < n -> Z.gcd (powm a e n - 1) n = 1 -> Z.gcd (a ^ Zpos e - 1) n = 1.
Proof.
  intros Hn. rewrite powm_ok by lia. intros H.
  rewrite Z.gcd_comm in H |- *. rewrite <- (Z.gcd_mod (a ^ Zpos e - 1)) by lia.
  rewrite <- (Z.gcd_mod ((a ^ Zpos e) mod n - 1)) in H by lia.
  rewrite <- (Zminus_mod_idemp_l (a ^ Zpos e)). exact H.
Qed.

Definition M127 : Z := 2 ^ 127 - 1.
Definition q1 : Z := 77158673929.
Definition q2 : Z := 649657.
Definition q3 : Z := 92737.

Definition q0 : Z := 699053.
Lemma q0_prime : prime q0.
Proof. apply (trial q0 (Z.to_nat 836)); vm_compute; reflexivity. Qed.
Lemma q1_prime : prime q1.
Proof.
  destruct (prime_dec q1) as [P|NP]; [exact P|exfalso].
  destruct (small_prime_divisor q1 eq_refl NP) as (p & Pp & Dp & S).
  assert (Hp : 1 < p) by (destruct Pp; assumption).
  assert (E : (3 ^ (q1 - 1)) mod q1 = 1).
  { change (q1 - 1) with (Zpos 77158673928). rewrite <- powm_ok by reflexivity. vm_compute. reflexivity. }
  assert (D : (q0 | p - 1)).
  { apply (pocklington_step q1 p q0 3 eq_refl Pp Dp q0_prime); [|exact E|].
    - exists 110376. reflexivity.
    - change ((q1 - 1) / q0) with 110376. apply (gcd_powm 3 110376 q1 eq_refl). vm_compute. reflexivity. }
  apply Z.divide_pos_le in D; [|lia].
  assert (q0 * q0 > q1) by (vm_compute; reflexivity). assert (0 < q0) by reflexivity. nia.
Qed.
Lemma q2_prime : prime q2.
Proof. apply (trial q2 (Z.to_nat 805)); vm_compute; reflexivity. Qed.
Lemma q3_prime : prime q3.
Proof. apply (trial q3 (Z.to_nat 304)); vm_compute; reflexivity. Qed.

Lemma witness q e : M127 - 1 = Zpos e * q -> 0 < q -> Z.gcd (powm 3 e M127 - 1) M127 = 1 ->
  Z.gcd (3 ^ ((M127 - 1) / q) - 1) M127 = 1.
Proof.
  intros E Hq G. rewrite E, Z.div_mul by lia. apply gcd_powm; [reflexivity|exact G].
Qed.

Theorem M127_prime : prime M127.
Proof.
  destruct (prime_dec M127) as [P|NP]; [exact P|exfalso].
  destruct (small_prime_divisor M127 eq_refl NP) as (p & Pp & Dp & S).
  assert (Hp : 1 < p) by (destruct Pp; assumption).
  assert (E : (3 ^ (M127 - 1)) mod M127 = 1).
  { change (M127 - 1) with (Zpos 170141183460469231731687303715884105726). rewrite <- powm_ok by reflexivity. vm_compute. reflexivity. }
  assert (D1 : (q1 | p - 1)).
  { apply (pocklington_step M127 p q1 3 eq_refl Pp Dp q1_prime); [|exact E|].
    - exists ((M127 - 1) / q1). vm_compute. reflexivity.
    - eapply witness; [|reflexivity|]. 1: instantiate (1 := Z.to_pos ((M127 - 1) / q1)); vm_compute; reflexivity. vm_compute. reflexivity. }
  assert (D2 : (q2 | p - 1)).
  { apply (pocklington_step M127 p q2 3 eq_refl Pp Dp q2_prime); [|exact E|].
    - exists ((M127 - 1) / q2). vm_compute. reflexivity.
    - eapply witness; [|reflexivity|]. 1: instantiate (1 := Z.to_pos ((M127 - 1) / q2)); vm_compute; reflexivity. vm_compute. reflexivity. }
  assert (D3 : (q3 | p - 1)).
  { apply (pocklington_step M127 p q3 3 eq_refl Pp Dp q3_prime); [|exact E|].
    - exists ((M127 - 1) / q3). vm_compute. reflexivity.
    - eapply witness; [|reflexivity|]. 1: instantiate (1 := Z.to_pos ((M127 - 1) / q3)); vm_compute; reflexivity. vm_compute. reflexivity. }
  assert (R : forall x y, Z.gcd x y = 1 -> (x | p - 1) -> (y | p - 1) -> (x * y | p - 1)).
  { intros x y G Dx (k & Ek). rewrite Ek. rewrite (Z.mul_comm k y), (Z.mul_comm x y). apply Z.mul_divide_mono_l.
    apply Gauss with y; [rewrite Z.mul_comm, <- Ek; exact Dx|]. apply Zgcd_1_rel_prime. exact G. }
  assert (D12 : (q1 * q2 | p - 1)) by (apply R; [vm_compute; reflexivity|assumption|assumption]).
  assert (D : (q1 * q2 * q3 | p - 1)) by (apply R; [vm_compute; reflexivity|assumption|assumption]).
  apply Z.divide_pos_le in D; [|lia].
  assert (q1 * q2 * q3 * (q1 * q2 * q3) > M127) by (vm_compute; reflexivity).
  assert (0 < q1 * q2 * q3) by reflexivity. nia.
Qed.
