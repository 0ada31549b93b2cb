(** * TinyMTPeriod: the period of the generator for the published parameters. *)
From Coq Require Import ZArith Znumtheory List Bool Lia.
From Verif Require Import Base Num TinyMT TinyMTFacts Mersenne.
Import List.
Import ListNotations.
Local Open Scope Z_scope.

(** ** Linear maps on bit vectors *)
Definition linear (f : Z -> Z) : Prop := forall x y, f (Z.lxor x y) = Z.lxor (f x) (f y).

Lemma linear_0 f : linear f -> f 0 = 0.
Proof. intros L. pose proof (L 0 0) as H. rewrite Z.lxor_0_l, Z.lxor_nilpotent in H. exact H. Qed.

Lemma linear_compose f g : linear f -> linear g -> linear (fun x => f (g x)).
Proof. intros F G x y. rewrite G, F. reflexivity. Qed.

Lemma linear_xor f g : linear f -> linear g -> linear (fun x => Z.lxor (f x) (g x)).
Proof.
  intros F G x y. rewrite F, G. rewrite !Z.lxor_assoc. f_equal. rewrite <- !Z.lxor_assoc. f_equal. apply Z.lxor_comm.
Qed.

Lemma linear_iter f k : linear f -> linear (Nat.iter k f).
Proof. intros F. induction k as [|k IH]; intros x y; simpl; [reflexivity|]. rewrite IH. apply F. Qed.

Lemma linear_shiftl k : linear (fun x => Z.shiftl x k).
Proof. intros x y. apply Z.shiftl_lxor. Qed.
Lemma linear_shiftr k : linear (fun x => Z.shiftr x k).
Proof. intros x y. apply Z.shiftr_lxor. Qed.
Lemma linear_land m : linear (fun x => Z.land x m).
Proof.
  intros x y. apply Z.bits_inj'. intros i Hi. rewrite Z.lxor_spec, !Z.land_spec, Z.lxor_spec.
  destruct (Z.testbit x i), (Z.testbit y i), (Z.testbit m i); reflexivity.
Qed.
Lemma linear_u64 : linear u64.
Proof.
  intros x y. unfold u64. rewrite <- !Z.land_ones by lia. apply (linear_land (Z.ones 64)).
Qed.
Lemma linear_mask m : linear (fun x => mask_if_odd x m).
Proof.
  intros x y. unfold mask_if_odd. rewrite odd_lxor. destruct (Z.odd x), (Z.odd y); cbn [xorb].
  - symmetry. apply Z.lxor_nilpotent.
  - symmetry. apply Z.lxor_0_r.
  - symmetry. apply Z.lxor_0_l.
  - reflexivity.
Qed.

(** The columns of a matrix: the images of 2^s, 2^(s+1), ... *)
Definition columns (f : Z -> Z) (s k : nat) : list Z := map (fun i => f (2 ^ Z.of_nat i)) (seq s k).

Fixpoint app_pos (cols : list Z) (p : positive) : Z :=
  match cols with
  | [] => 0
  | c :: cs => match p with
               | xH => c
               | xO q => app_pos cs q
               | xI q => Z.lxor c (app_pos cs q)
               end
  end.
Definition app (cols : list Z) (v : Z) : Z := match v with Zpos p => app_pos cols p | _ => 0 end.

Lemma app_pos_ok f : linear f -> forall k s p, Zpos p < 2 ^ Z.of_nat k ->
  app_pos (columns f s k) p = f (Z.shiftl (Zpos p) (Z.of_nat s)).
Proof.
  intros L. induction k as [|k IH]; intros s p H; [change (2 ^ Z.of_nat 0) with 1 in H; lia|].
  rewrite Nat2Z.inj_succ, Z.pow_succ_r in H by lia.
  change (columns f s (S k)) with (f (2 ^ Z.of_nat s) :: columns f (S s) k).
  assert (D : forall q, Z.shiftl (Zpos q) (Z.of_nat (S s)) = Z.shiftl (2 * Zpos q) (Z.of_nat s)).
  { intros q. rewrite !Z.shiftl_mul_pow2 by lia. rewrite Nat2Z.inj_succ, Z.pow_succ_r by lia. ring. }
  destruct p as [q|q|]; cbn [app_pos].
  - rewrite IH by lia. rewrite D, <- L. f_equal.
    change (Z.pos q~1) with (2 * Z.pos q + 1).
    assert (E : 2 * Z.pos q + 1 = Z.lxor 1 (2 * Z.pos q)) by (destruct q; reflexivity).
    rewrite E, Z.shiftl_lxor, Z.shiftl_1_l. reflexivity.
  - rewrite IH by lia. rewrite D. reflexivity.
  - rewrite Z.shiftl_1_l. reflexivity.
Qed.

Lemma app_ok f k v : linear f -> word (Z.of_nat k) v -> app (columns f 0 k) v = f v.
Proof.
  intros L (H0 & H1). destruct v as [|p|p]; [|  |lia]. { symmetry. apply linear_0. exact L. }
  cbn [app]. rewrite app_pos_ok by assumption. rewrite Z.shiftl_0_r. reflexivity.
Qed.

Lemma iter_twice {A} (f : A -> A) n x : Nat.iter n f (Nat.iter n f x) = Nat.iter (2 * n) f x.
Proof. rewrite <- iter_add. f_equal. lia. Qed.

Lemma iter_word f k j v : (forall v, word k v -> word k (f v)) -> word k v -> word k (Nat.iter j f v).
Proof. intros W H. induction j; simpl; auto. Qed.

(** ** The transition of the generator as a linear map on 127 bits *)
Definition code (s : Z * Z) : Z := Z.lxor (fst s) (Z.shiftl (snd s) 63).
Definition tnext (m1 m2 v : Z) : Z :=
  let x := Z.lxor (Z.land v TINYMT64_MASK) (Z.shiftr v 63) in
  let x := Z.lxor x (u64 (Z.shiftl x TINYMT64_SH0)) in
  let x := Z.lxor x (Z.shiftr x 32) in
  let x := Z.lxor x (u64 (Z.shiftl x 32)) in
  let x := Z.lxor x (u64 (Z.shiftl x TINYMT64_SH1)) in
  Z.lxor (Z.land (Z.lxor (Z.shiftr v 63) (mask_if_odd x m1)) TINYMT64_MASK)
         (Z.shiftl (Z.lxor x (mask_if_odd x (u64 (Z.shiftl m2 32)))) 63).

Lemma code_low s : word 63 (fst s) -> word 64 (snd s) -> Z.land (code s) TINYMT64_MASK = fst s.
Proof.
  destruct s as (a, b). cbn [fst snd]. intros Ha Hb. unfold code. cbn [fst snd].
  apply Z.bits_inj'. intros i Hi. rewrite mask_bit, Z.lxor_spec.
  apply word_bits in Ha; [|lia]. destruct Ha as (_ & Ha).
  destruct (Z.ltb_spec i 63) as [L|G].
  - rewrite Z.shiftl_spec_low by lia. rewrite xorb_false_r. replace (0 <=? i) with true by lia. rewrite !andb_true_r. reflexivity.
  - rewrite Ha by lia. apply andb_false_r.
Qed.
Lemma code_high s : word 63 (fst s) -> word 64 (snd s) -> Z.shiftr (code s) 63 = snd s.
Proof.
  destruct s as (a, b). cbn [fst snd]. intros Ha Hb. unfold code. cbn [fst snd].
  rewrite Z.shiftr_lxor, Z.shiftr_shiftl_l, Z.sub_diag, Z.shiftl_0_r by lia.
  replace (Z.shiftr a 63) with 0; [apply Z.lxor_0_l|]. symmetry. destruct Ha. rewrite Z.shiftr_div_pow2 by lia. apply Z.div_small. lia.
Qed.
Lemma code_inj s s' : word 63 (fst s) -> word 64 (snd s) -> word 63 (fst s') -> word 64 (snd s') -> code s = code s' -> s = s'.
Proof.
  intros A B C D E. pose proof (code_low s A B) as L. pose proof (code_high s A B) as H.
  rewrite E, code_low in L by assumption. rewrite E, code_high in H by assumption.
  destruct s, s'; cbn [fst snd] in *; congruence.
Qed.
Lemma code_word s : word 63 (fst s) -> word 64 (snd s) -> word 127 (code s).
Proof.
  destruct s as (a, b). cbn [fst snd]. intros Ha Hb. unfold code. cbn [fst snd]. apply word_lxor; [lia|apply (word_le 63); [lia|exact Ha]|].
  destruct Hb. split; [apply Z.shiftl_nonneg; lia|]. rewrite Z.shiftl_mul_pow2 by lia. 
  change (2 ^ 127) with (2 ^ 64 * 2 ^ 63). apply Z.mul_lt_mono_pos_r; [reflexivity|lia].
Qed.

Lemma code_next r : state_ok r ->
  code (masked (tinymt64_next_state r)) = tnext (mat1 r) (mat2 r) (code (masked r)).
Proof.
  intros H. pose proof (masked_word r H) as (A & B).
  unfold tnext. rewrite (code_low _ A B), (code_high _ A B).
  unfold masked, tinymt64_next_state. cbn [fst snd status0 status1]. unfold code. cbn [fst snd]. reflexivity.
Qed.

Lemma code_iter r k : state_ok r ->
  code (masked (Nat.iter k tinymt64_next_state r)) = Nat.iter k (tnext (mat1 r) (mat2 r)) (code (masked r)).
Proof.
  intros H. induction k as [|k IH]; [reflexivity|]. 
  change (Nat.iter (S k) tinymt64_next_state r) with (tinymt64_next_state (Nat.iter k tinymt64_next_state r)).
  change (Nat.iter (S k) (tnext (mat1 r) (mat2 r)) (code (masked r)))
    with (tnext (mat1 r) (mat2 r) (Nat.iter k (tnext (mat1 r) (mat2 r)) (code (masked r)))).
  rewrite code_next by (apply iter_ok; exact H). rewrite IH.
  pose proof (parameters_iter r k) as P. unfold parameters in P. injection P as -> -> _. reflexivity.
Qed.

Lemma linear_xorshift (g : Z -> Z) : linear g -> linear (fun x => Z.lxor x (g x)).
Proof. intros G. apply (linear_xor (fun x => x)); [intros x y; reflexivity|exact G]. Qed.

Lemma tnext_linear m1 m2 : linear (tnext m1 m2).
Proof.
  pose (x0 := fun v => Z.lxor (Z.land v TINYMT64_MASK) (Z.shiftr v 63)).
  pose (h1 := fun x => Z.lxor x (u64 (Z.shiftl x TINYMT64_SH0))).
  pose (h2 := fun x => Z.lxor x (Z.shiftr x 32)).
  pose (h3 := fun x => Z.lxor x (u64 (Z.shiftl x 32))).
  pose (h4 := fun x => Z.lxor x (u64 (Z.shiftl x TINYMT64_SH1))).
  pose (x4 := fun v => h4 (h3 (h2 (h1 (x0 v))))).
  assert (L0 : linear x0) by (apply linear_xor; [apply linear_land|apply linear_shiftr]).
  assert (US : forall k, linear (fun x => u64 (Z.shiftl x k))) by (intros k; apply (linear_compose u64); [apply linear_u64|apply linear_shiftl]).
  assert (L1 : linear h1) by apply linear_xorshift, US.
  assert (L2 : linear h2) by apply linear_xorshift, linear_shiftr.
  assert (L3 : linear h3) by apply linear_xorshift, US.
  assert (L4 : linear h4) by apply linear_xorshift, US.
  assert (LX : linear x4) by (intros a b; unfold x4; rewrite L0, L1, L2, L3, L4; reflexivity).
  change (linear (fun v => Z.lxor (Z.land (Z.lxor (Z.shiftr v 63) (mask_if_odd (x4 v) m1)) TINYMT64_MASK)
         (Z.shiftl (Z.lxor (x4 v) (mask_if_odd (x4 v) (u64 (Z.shiftl m2 32)))) 63))).
  apply linear_xor.
  - apply (linear_compose (fun z => Z.land z TINYMT64_MASK)); [apply linear_land|].
    apply linear_xor; [apply linear_shiftr|]. apply (linear_compose (fun z => mask_if_odd z m1)); [apply linear_mask|exact LX].
  - apply (linear_compose (fun z => Z.shiftl z 63)); [apply linear_shiftl|]. apply linear_xor; [exact LX|].
    apply (linear_compose (fun z => mask_if_odd z (u64 (Z.shiftl m2 32)))); [apply linear_mask|exact LX].
Qed.

(** Every 127-bit vector is the code of a state. *)
Lemma tnext_word m1 m2 v : word 32 m1 -> word 32 m2 -> word 127 v -> word 127 (tnext m1 m2 v).
Proof.
  intros H1 H2 Hv.
  set (r := mkTinymt (Z.land v TINYMT64_MASK) (Z.shiftr v 63) m1 m2 0).
  assert (Ok : state_ok r).
  { unfold state_ok, r. cbn [status0 status1 mat1 mat2 tmat]. split; [apply (word_le 63); [lia|]; apply word_land_mask, Hv|].
    split; [apply word_shiftr; [lia|lia|exact Hv]|]. split; [exact H1|]. split; [exact H2|]. split; [lia|reflexivity]. }
  assert (E : code (masked r) = v).
  { unfold masked, r, code. cbn [status0 status1 fst snd]. apply Z.bits_inj'. intros i Hi.
    rewrite Z.lxor_spec, !mask_bit. destruct (Z.ltb_spec i 63).
    - rewrite Z.shiftl_spec_low by lia. replace (0 <=? i) with true by lia. rewrite !andb_true_r. apply xorb_false_r.
    - rewrite andb_false_r, xorb_false_l, Z.shiftl_spec_high, Z.shiftr_spec by lia. f_equal. lia. }
  rewrite <- E. change m1 with (mat1 r). change m2 with (mat2 r). rewrite <- (code_next r Ok).
  pose proof (masked_word _ (next_ok r Ok)) as (A & B). apply code_word; assumption.
Qed.

(** ** Polynomials in a linear map *)
(** Coefficients in GF(2), highest first (Horner's scheme). *)
Definition hor_step (f : Z -> Z) (v : Z) (a : Z) (c : bool) : Z := Z.lxor (f a) (if c then v else 0).
Definition hor (f : Z -> Z) (cs : list bool) (v : Z) : Z := fold_left (hor_step f v) cs 0.

Lemma hor_snoc f cs c v : hor f (cs ++ [c]) v = Z.lxor (f (hor f cs v)) (if c then v else 0).
Proof. unfold hor. rewrite fold_left_app. reflexivity. Qed.

Lemma hor_acc f v : linear f -> forall cs a, fold_left (hor_step f v) cs a = Z.lxor (Nat.iter (length cs) f a) (hor f cs v).
Proof.
  intros L. induction cs as [|c cs IH] using rev_ind; intros a; [symmetry; apply Z.lxor_0_r|].
  rewrite hor_snoc, fold_left_app. cbn [fold_left]. unfold hor_step at 1. rewrite IH, L, app_length, Nat.add_1_r.
  cbn [Nat.iter nat_rect]. rewrite Z.lxor_assoc. reflexivity.
Qed.
Lemma hor_cons f b cs v : linear f -> hor f (b :: cs) v = Z.lxor (if b then Nat.iter (length cs) f v else 0) (hor f cs v).
Proof.
  intros L. unfold hor at 1. cbn [fold_left]. rewrite hor_acc by exact L. f_equal. unfold hor_step. rewrite (linear_0 f L), Z.lxor_0_l.
  destruct b; [reflexivity|]. apply linear_0. apply linear_iter. exact L.
Qed.
Lemma lxor_swap a b c d : Z.lxor (Z.lxor a b) (Z.lxor c d) = Z.lxor (Z.lxor a c) (Z.lxor b d).
Proof. apply Z.bits_inj'. intros i _. rewrite !Z.lxor_spec. destruct (Z.testbit a i), (Z.testbit b i), (Z.testbit c i), (Z.testbit d i); reflexivity. Qed.
Lemma hor_linear f cs : linear f -> linear (hor f cs).
Proof.
  intros L. induction cs as [|c cs IH] using rev_ind; intros x y; [reflexivity|]. rewrite !hor_snoc, IH, L, lxor_swap.
  f_equal. destruct c; reflexivity.
Qed.
Lemma hor_comm f cs v : linear f -> f (hor f cs v) = hor f cs (f v).
Proof.
  intros L. induction cs as [|c cs IH] using rev_ind; [apply linear_0; exact L|]. rewrite !hor_snoc, L, IH. f_equal.
  destruct c; [reflexivity|]. apply linear_0; exact L.
Qed.
Lemma hor_word f k cs v : (forall v, word k v -> word k (f v)) -> 0 <= k -> word k v -> word k (hor f cs v).
Proof.
  intros W Hk H. assert (H0 : word k 0) by (split; [lia|apply Z.pow_pos_nonneg; lia]).
  induction cs as [|c cs IH] using rev_ind; [exact H0|]. rewrite hor_snoc. apply word_lxor; [exact Hk|apply W; exact IH|].
  destruct c; assumption.
Qed.

(** The square of a polynomial over GF(2) has the squares of its terms. *)
Lemma hor_square f cs v : linear f ->
  fold_left (fun a c => Z.lxor (f (f a)) (if c : bool then v else 0)) cs 0 = hor f cs (hor f cs v).
Proof.
  intros L. induction cs as [|c cs IH] using rev_ind; [reflexivity|].
  rewrite fold_left_app. cbn [fold_left]. rewrite IH. rewrite (hor_snoc f cs c v).
  rewrite (hor_linear f (cs ++ [c]) L). rewrite !hor_snoc.
  rewrite <- (hor_comm f cs (hor f cs v) L).
  assert (E : hor f cs (if c then v else 0) = (if c then hor f cs v else 0)).
  { destruct c; [reflexivity|]. apply linear_0, hor_linear, L. }
  rewrite E. destruct c.
  - apply Z.bits_inj'. intros i _. rewrite !Z.lxor_spec.
    destruct (Z.testbit (f (f (hor f cs (hor f cs v)))) i), (Z.testbit (f (hor f cs v)) i), (Z.testbit v i); reflexivity.
  - rewrite (linear_0 f L), !Z.lxor_0_r. reflexivity.
Qed.

(** *** Arithmetic modulo x^n + p, p a list of n coefficients *)
Fixpoint step (b : bool) (r p : list bool) (c : bool) : list bool :=
  match p with
  | [] => []
  | y :: p => match r with
              | [] => match xorb c (b && y) with true => [true] | false => [false] end
              | x :: r => match xorb x (b && y) with true => true :: step b r p c | false => false :: step b r p c end
              end
  end.
Definition mulx (p r : list bool) (c : bool) : list bool := match r with [] => [] | b :: r => step b r p c end.
Definition sq (p r : list bool) : list bool :=
  fold_left (fun a c => mulx p (mulx p a false) c) r (repeat false (length p)).

Lemma step_cons b x r y p c : step b (x :: r) (y :: p) c = xorb x (b && y) :: step b r p c.
Proof. cbn [step]. destruct (xorb x (b && y)); reflexivity. Qed.
Lemma step_nil b y c : step b [] [y] c = [xorb c (b && y)].
Proof. cbn [step]. destruct (xorb c (b && y)); reflexivity. Qed.
Lemma step_length b c : forall r p, length p = S (length r) -> length (step b r p c) = length p.
Proof.
  induction r as [|x r IH]; intros [|y p] H; try discriminate.
  - destruct p; [|discriminate]. rewrite step_nil. reflexivity.
  - rewrite step_cons. simpl. f_equal. apply IH. simpl in H. lia.
Qed.
Lemma step_ok f b c v : linear f -> forall r p, length p = S (length r) ->
  hor f (step b r p c) v = Z.lxor (Z.lxor (f (hor f r v)) (if c then v else 0)) (if b then hor f p v else 0).
Proof.
  intros L. induction r as [|x r IH]; intros [|y p] H; try discriminate.
  - destruct p; [|discriminate]. rewrite step_nil. unfold hor. cbn [fold_left]. unfold hor_step. rewrite (linear_0 f L), !Z.lxor_0_l.
    destruct b, c, y; cbn [xorb andb]; rewrite ?Z.lxor_nilpotent, ?Z.lxor_0_l, ?Z.lxor_0_r; reflexivity.
  - rewrite step_cons, hor_cons, IH by (exact L || (simpl in H; lia)). rewrite (hor_cons f x r v L), (hor_cons f y p v L), L.
    rewrite step_length by (simpl in H; lia). replace (length p) with (S (length r)) by (simpl in H; lia).
    set (w := Nat.iter (S (length r)) f v).
    assert (E : f (if x then Nat.iter (length r) f v else 0) = if x then w else 0).
    { destruct x; [reflexivity|]. apply linear_0, L. }
    rewrite E. clearbody w. apply Z.bits_inj'. intros i _. rewrite !Z.lxor_spec.
    destruct b, x, y; cbn [xorb andb]; rewrite ?Z.lxor_spec, ?Z.bits_0;
      destruct (Z.testbit w i), (Z.testbit (f (hor f r v)) i), (Z.testbit (if c then v else 0) i), (Z.testbit (hor f p v) i); reflexivity.
Qed.

Section Mod.
Variables (f : Z -> Z) (p : list bool) (k : Z).
Hypothesis L : linear f.
Hypothesis Hk : 0 <= k.
Hypothesis W : forall v, word k v -> word k (f v).
Hypothesis A : forall v, word k v -> hor f (true :: p) v = 0.

Lemma top_power v : word k v -> Nat.iter (length p) f v = hor f p v.
Proof. intros H. apply Z.lxor_eq. rewrite <- (A v H). symmetry. apply (hor_cons f true p v L). Qed.

Lemma mulx_length r c : length r = length p -> length (mulx p r c) = length p.
Proof. intros H. destruct r as [|b r]; [exact H|]. apply step_length. symmetry. exact H. Qed.
Lemma mulx_ok r c v : p <> [] -> length r = length p -> word k v -> hor f (mulx p r c) v = Z.lxor (f (hor f r v)) (if c then v else 0).
Proof.
  intros NE H Hv. destruct r as [|b r]; [destruct p; [congruence|discriminate]|]. cbn [mulx].
  rewrite step_ok by (exact L || (symmetry; exact H)). rewrite (hor_cons f b r v L), L, <- (top_power v Hv), <- H.
  assert (E : f (if b then Nat.iter (length r) f v else 0) = if b then Nat.iter (length (b :: r)) f v else 0).
  { destruct b; [reflexivity|]. apply linear_0, L. }
  rewrite E. rewrite Z.lxor_comm, Z.lxor_assoc. reflexivity.
Qed.
Lemma sq_ok r v : p <> [] -> word k v -> length (sq p r) = length p /\ hor f (sq p r) v = hor f r (hor f r v).
Proof.
  intros NE Hv. rewrite <- (hor_square f r v L). unfold sq.
  assert (Z0 : hor f (repeat false (length p)) v = 0).
  { generalize (length p). intros m. induction m as [|m IH]; [reflexivity|]. cbn [repeat]. rewrite (hor_cons f false _ v L), IH. reflexivity. }
  induction r as [|c r (IHl & IHh)] using rev_ind.
  - cbn [fold_left]. split; [apply repeat_length|exact Z0].
  - rewrite !fold_left_app. cbn [fold_left]. set (a := fold_left _ r _) in *. clearbody a. split.
    + apply mulx_length. apply mulx_length. exact IHl.
    + rewrite mulx_ok by (try assumption; apply mulx_length; exact IHl). rewrite mulx_ok by assumption.
      rewrite Z.lxor_0_r, IHh. reflexivity.
Qed.

(** x^e modulo the polynomial. *)
Fixpoint powx (X : list bool) (e : positive) : list bool :=
  match e with
  | xH => X
  | xO e => sq p (powx X e)
  | xI e => mulx p (sq p (powx X e)) false
  end.
Lemma powx_ok X : p <> [] -> length X = length p -> (forall v, word k v -> hor f X v = f v) ->
  forall e, length (powx X e) = length p /\ forall v, word k v -> hor f (powx X e) v = Nat.iter (Pos.to_nat e) f v.
Proof.
  intros NE LX HX. induction e as [e (IHl & IH)|e (IHl & IH)|]; cbn [powx].
  - split; [apply mulx_length; apply (sq_ok _ 0 NE); split; [lia|apply Z.pow_pos_nonneg; lia]|]. intros v Hv.
    destruct (sq_ok (powx X e) v NE Hv) as (S1 & S2). rewrite mulx_ok by assumption.
    rewrite Z.lxor_0_r, S2, !IH; [|exact Hv|apply hor_word; assumption].
    rewrite iter_twice, Pos2Nat.inj_xI. reflexivity.
  - split; [apply (sq_ok _ 0 NE); split; [lia|apply Z.pow_pos_nonneg; lia]|]. intros v Hv.
    destruct (sq_ok (powx X e) v NE Hv) as (S1 & S2).
    rewrite S2, !IH; [|exact Hv|apply hor_word; assumption].
    rewrite iter_twice, Pos2Nat.inj_xO. reflexivity.
  - split; [exact LX|]. intros v Hv. rewrite HX by exact Hv. reflexivity.
Qed.
End Mod.

Definition X127 : list bool := repeat false 125 ++ [true; false].
Definition one127 : list bool := repeat false 126 ++ [true].
Lemma hor_repeat f m cs v : linear f -> hor f (repeat false m ++ cs) v = hor f cs v.
Proof.
  intros L. induction m as [|m IH]; [reflexivity|]. change (repeat false (S m) ++ cs) with (false :: (repeat false m ++ cs)).
  rewrite hor_cons, IH by exact L. reflexivity.
Qed.
Lemma X127_ok f v : linear f -> hor f X127 v = f v.
Proof.
  intros L. unfold X127. rewrite hor_repeat by exact L. unfold hor. cbn [fold_left]. unfold hor_step.
  rewrite (linear_0 f L), Z.lxor_0_l. apply Z.lxor_0_r.
Qed.
Lemma one127_ok f v : linear f -> hor f one127 v = v.
Proof.
  intros L. unfold one127. rewrite hor_repeat by exact L. unfold hor. cbn [fold_left]. unfold hor_step.
  rewrite (linear_0 f L), Z.lxor_0_l. reflexivity.
Qed.

(** ** Fixed points *)
Definition parity (cs : list bool) : bool := fold_left xorb cs false.
Lemma hor_fixed f cs v : f v = v -> f 0 = 0 -> hor f cs v = if parity cs then v else 0.
Proof.
  intros H H0. unfold parity. induction cs as [|c cs IH] using rev_ind; [reflexivity|]. rewrite hor_snoc, IH, fold_left_app. cbn [fold_left].
  destruct c, (fold_left xorb cs false); cbn [xorb]; rewrite ?H, ?H0, ?Z.lxor_nilpotent, ?Z.lxor_0_l, ?Z.lxor_0_r; reflexivity.
Qed.
Lemma zero_on_basis f k v : linear f -> word (Z.of_nat k) v ->
  forallb (fun c => c =? 0) (columns f 0 k) = true -> f v = 0.
Proof.
  intros L W H. rewrite <- (app_ok f k v L W). destruct v as [|p|p]; [reflexivity| |reflexivity]. cbn [app].
  revert H p W. generalize (columns f 0 k). intros l H p _. revert p.
  induction l as [|c l IH]; intros p; [reflexivity|]. cbn [forallb] in H. apply andb_prop in H as (E & H). apply Z.eqb_eq in E. subst c.
  destruct p; cbn [app_pos]; [rewrite IH by exact H; reflexivity|apply IH; exact H|reflexivity].
Qed.

(** A polynomial in [f] vanishes if it vanishes on one vector whose images span. *)
Fixpoint iterates (f : Z -> Z) (e : Z) (n : nat) : list Z :=
  match n with O => [] | S n => e :: iterates f (f e) n end.
Lemma iterates_zero f g e n : (forall v, f (g v) = g (f v)) -> f 0 = 0 -> g e = 0 -> Forall (fun v => g v = 0) (iterates f e n).
Proof.
  intros C F0 H. revert e H. induction n as [|n IH]; intros e H; constructor; [exact H|]. apply IH. rewrite <- C, H. exact F0.
Qed.
Lemma app_zero g l p : linear g -> Forall (fun v => g v = 0) l -> g (app_pos l p) = 0.
Proof.
  intros L F. revert p. induction F as [|v l Hv F IH]; intros p; [apply linear_0; exact L|].
  destruct p; cbn [app_pos]; [rewrite L, Hv, IH; reflexivity|apply IH|exact Hv].
Qed.
Lemma zero_on_cyclic f k cs e vs cert v : linear f -> iterates f e k = vs ->
  map (app vs) cert = columns (fun v => v) 0 k -> hor f cs e = 0 -> word (Z.of_nat k) v -> hor f cs v = 0.
Proof.
  intros L I C H W. apply (zero_on_basis (hor f cs) k); [apply hor_linear; exact L|exact W|].
  apply forallb_forall. intros x Hx. apply Z.eqb_eq.
  unfold columns in Hx. apply in_map_iff in Hx as (i & <- & Hi).
  assert (J : In (2 ^ Z.of_nat i) (map (app vs) cert)).
  { rewrite C. unfold columns. apply in_map_iff. exists i. split; [reflexivity|exact Hi]. }
  apply in_map_iff in J as (c & <- & _). destruct c as [|p|p]; try (apply linear_0, hor_linear, L).
  cbn [app]. apply app_zero; [apply hor_linear; exact L|]. rewrite <- I. apply iterates_zero; [|apply linear_0; exact L|exact H].
  intros w. apply hor_comm. exact L.
Qed.

(** ** The published parameters *)
(** The parameter set of the TinyMT distribution's examples. *)
Definition MAT1 : Z := 0xfa051f40.
Definition MAT2 : Z := 0xffd0fff4.

(** The characteristic polynomial, highest coefficient first, without the leading 1. *)
Definition charpoly : list bool :=
  [false; false; true; false; true; false; false; false; true; false; true; true; true; true; false; false; false; false; false; true; false; true; false; true; true; false; true; false; true; false; false; true; false; true; false; false; false; true; true; false; false; false; false; true; true; true; false; true; true; false; false; false; false; false; true; true; false; false; true; false; true; false; false; false; false; true; true; false; false; true; false; true; true; false; true; true; true; true; true; true; false; true; false; true; false; false; true; true; true; false; true; false; true; false; true; true; false; false; true; false; true; false; true; true; false; false; true; true; true; true; false; false; true; false; true; true; true; false; true; false; true; false; true; true; true; false; true].

Notation T := (tnext MAT1 MAT2).

(** The first 127 images of 1, and the combinations of them giving 2^0, 2^1, ... *)
Definition images : list Z :=
  [0x1; 0x7fa873fa80400c0080000000fa051f40; 0x11258ecfd753278e7f50e7f500801801; 0x445fc8d33fab3fcaa24b1d9f54a3505c;
   0x65938672371a6ca788bf91a6855360d5; 0x301967a7a7f0ed374b270ce46e34d94f; 0x5b577271a2ee6d4be032cf4fb5e4c52e;
   0x36df224b275eed8b36aee4e345dcda97; 0x69fa8de91eb278a16dbe44964ebddb16; 0x7eff197b78a90d16d3f51bd2c761ee02;
   0x40a83e402b4d97347dfe32f6f1521a2d; 0x503fd96b87631c2781507c80ac9e3128; 0x576adeb5acb6328aa07fb2d7f4c3270f;
   0x174f18d2477263be2ed5bd6b596c6515; 0x161ebea0579bd9ef2e9e31a48ee4c77c; 0x11f65d28c113412dac3d7d405532ac9e;
   0x54ef5681a1bec652a3ecba5178239d1b; 0x50c7ee1339406aca9dead03b97893e5; 0x6a75d1b8cf6e9cc0a18fdc267280d59;
   0x36afe260a37b0f6c0d4eba3719edd398; 0x313a9b0a8d41f723ed5fc4c1bcf30198; 0x6039f3cdaed8e3b6627536151a83ee47;
   0x30b4e23f2fec0e6b4073e79b5db1c76c; 0x79efaa54d65ae03ce169c47ea5dd0396; 0x1a64a40c083851d773df54a9acb5c079;
   0x153356db7240225534c948181070a3ae; 0x343c11db8d42f2aa66adb61e855bea; 0x296fd6b16b105c81806878234d1f9aa5;
   0x218c38c8b94e17aa52dfad62d620b903; 0x2e9dd0d6c4eb3c77c318719188993014; 0x6ebecdc68d33869dd3ba1ad73d367af;
   0x72dc9a2f8de2c2a70dd7d9b8d1a670d3; 0x120b6500d3162a6e65b9345f1bc5854e; 0x53be32b3a4cd3a092416ca01a62c54dc;
   0x5236250dca164ca9a77c6567b39f6b52; 0x43c1f7651c861f83246c4a1b942c9953; 0x447bacd16252fc2b0783eeca390c3f06;
   0x43f3213f2910f7f108f759a2c4a5f856; 0x16a17aff6abdc28007e6427e5221efe2; 0x3e39d38b83c0268bad42f5fe2f7e9a40;
   0x33b0f2579156f798fc73a717fd855257; 0x510af71c69a739966761e4af22adef31; 0x6d2153395a19ccca2215ee38d34e732c;
   0x7aa9aa720c90d642da42a6724e3686d4; 0x5a305b7ee0738edb755354e41921ac85; 0xf6e0daeb919275b3460b6fdc0e71db6;
   0x1956d6640c17cec69edc1b5d883751f6; 0xc762d68cba07577b2adacc8e22a82cd; 0x373cd07053c1a0b698ec5ad16d45f5af;
   0x57e3fb9b597452fee79a0e05d865e2d; 0x1dce4fc90d2ba0458afc7f73912b951f; 0x35449b2f1112bee13b9c9f921a57408b;
   0x176672e4370beb816a89365e22257dc2; 0x360c2b65b7875acaaecce5c89412c842; 0x65bfa5c50c9754b2ec1856cb950baad5;
   0x69e9be08b14e4f19cb7f4b8ae32bb625; 0x20bb7ea8db6fbbcb53d37c11629c9e33; 0x6c6235a970e29ed0c176fd514cda68d6;
   0x7359b2e39e6bd0d2d8c46b521bc022e1; 0x209cf3e4bea04fd066b365c73cd7a1a5; 0x4483a1f5aacecc094139e7c97d409fa0;
   0x1b25a74807e9248e890743ebaf988752; 0x3eae20eb2fbe0498364b4e900fd2491d; 0x17fe81d1f84e7930fd5c41d6a5791670;
   0x16023f3c2d1d999d2ffd03a3f09cf261; 0x229c55a7fb93f3152c047e785a3b333a; 0x772a998ebfae57b4538ab4ff727e62a;
   0x154fbcd5cf847578ee553312df0d5b6; 0xff480d27480237902a9f79ab9f08eaf; 0x7a5bf917ff06b5b61fe901a4e90046f2;
   0x4e346233aae4d3b2f4b7f22f0408742c; 0xc9ffb0390670c0e9c68c467afccb825; 0x56007351a9d2ad54193ff60720ce181d;
   0x1c02a0ad14ae3e93ac00e6a3a9a045e8; 0x1d7327a9ad599f9cb805415ad3596267; 0x1702d92dffb131e4bae64f53a0b62079;
   0x4f111ee1688309a2ae05b25b05677c89; 0x681998350bd592899e223dc22b030c05; 0x3a38fd08fb64b3ba5033306a17ab2513;
   0x726b860563c88b057471fa11f6c96774; 0x656231990795aa3864d70c0ac791160a; 0x3e2f65168e39a4e4cac46332f52e4b30;
   0x291ad01335a92eb9fc5eca2de6765689; 0x778a43526b4cb091d235a02691574233; 0x2e73d1a2dddca8f76f1486a4d6996123;
   0x49545d8b08f11ff5ce7a345bbb951ee; 0x4f0b79a3053f33a7092a8bb1611e23fe; 0x656f1d5c7ee7e1789e16f346f07b780e;
   0x4e265906bea959ed4ade3ab8fdcfc2f1; 0x6b2b31c98c8d54cb9c4cb20d8757ac9a; 0x2fb2a1d8ef3aaabbd6566393e31fb6d7;
   0xa26f371d3b1a02a5f6543b1de755577; 0x1cb69df50a0353f0144de6e3a7634054; 0x73f9ff17dd715cc5b96d3beaee03b8a0;
   0x6cbd754d7f9e10d067f3fe2fbae2b98b; 0x5966c5e1b86c3861d97aea9a05393ee0; 0x3d7930e37870541232cd8bc370d870c3;
   0x2390b56579ff0970faf261c60ae5b764; 0x2e77effa27d4788c47216acaf3fe12e1; 0x4cfb5d7741ce1e815cefdff44fa8f118;
   0x6a22a2b99f49dee199f6baee79992242; 0x3d4743b26ccde236544545733e93bdc3; 0x7a6ffb1e19eb3ae47a8e8764d99bc46c;
   0x476d6a721830e72c74dff63c33d675c8; 0x79016172f076c0b98edad4e4ca64d118; 0x60465f3d3e88fa617202c2e5e0ed8173;
   0x4f2d091d0473b478c08cbe7a8714eb82; 0x492f95b6d9b43be61e5a123a08e768f1; 0x560291c978c10ee9125f2b6db36877cc;
   0x23e5c11f04940767ac0523920b870292; 0x2dac641a432832edc7cb823ef32d118f; 0x4e2537f86a61c884db58c8347c557a9b;
   0x23d1d29e113bef6f9c4a6ff02ec68e49; 0x13f63cca9b94d948c7a3a53cd872c19f; 0x279f290d9b220a927ec79953729b291;
   0x155f901d548e479984f3e52149615e12; 0x5e5b18172551a91eaabf203a53199073; 0x5dae541700843de0bcb6302eb0a64d7d;
   0x3eb80aac83c12ad33b5ca82e01087bc1; 0x634fb395ca8629bc7d701559078255a6; 0x36ea8b97b1e3cec2469f672b950c5378;
   0x3529f467dbf148ca6dd5172f63c79d84; 0x524245ba05b4b7596a53e8cfb7e29194; 0x18282a8708d7f7aaa4848b74f16c71f2;
   0x34c616a9aa760b68b050550eebaaf015; 0x3de63da5ebac36b6e98c2d53aee90991; 0x3284dc6741ba46bffbcc7b4b2d5d722d].
Definition cert : list Z :=
  [0x1; 0x6462de33101d2c6e8058bf98a7ed7df1; 0x7e1774b44c7151459db79d147cc281fb; 0x46a17498976a604e4f226c903474678f;
   0x6d652d4a6e5d151f38e80b37430404a2; 0x4687b2e95f873653346970e39dd64110; 0x52e20629a9a156cabb2fd111a8002694;
   0x6817025a5e47ad541b0617fc0d6afc36; 0x173573dbbca2bbb413b4b1b46d0f2681; 0x1bf2c730eefe76e936ee64f2b9a2074d;
   0x44d28bef4c7190f8e9f717f7b2f2e737; 0x719157fb518660dc4c6815fbe3bfbf0a; 0x57f4b6a11ccae10a255e1828fbdb3ae4;
   0x72c690e3aa27350ded9031aa7a671a64; 0x32e65674e15bfa7e41f84aac9fa47a7; 0x5e15695b01bfd82f53e064dbbbabc129;
   0x3021bdf9147ae7bf66acf578a28d12d3; 0x4c7f9d7634cbdb69fa56a407537f994a; 0x43a9b243513fb65aa2cc38412734e4a6;
   0x67562af00956c7aee46fd03c8a71b42b; 0x432e0cfee02486f0f7b1829ef7ee6800; 0x138e4d0f3f2039ca3d6f3b4c422acdc7;
   0x24565a905d4b6cafd2250b992565c38a; 0x73086a4c1f042ed1b955c17e24cef32d; 0x1c137e1df14c6b5d6a8770bbc2befab6;
   0x2b3cacc5bd70612a209342d08db9e065; 0x24593656850cb29753f5b9d8da3ee540; 0x59c576818a4e40e2923b5bc1b1931402;
   0x24792b1d074ecda36745449fc277e778; 0x5e23e86f95a27abe949d4ad0cfbe5950; 0x1ccddde494f975069418199cf788c051;
   0x7131c08724a2a2cb82e3a03bf77ca128; 0x2efdb76936500f06a87a01af0a911534; 0x1ce6a01816f2dd32153b608dee2bad45;
   0x7469da58b691e37ca2a7514c9e6228c0; 0x7f29f31ac0d1a753aa86294d06a3fac9; 0x71c06104d519cf67b147c41545fbbfd5;
   0x67c0f53c1b6682f5c1c6955e9315e47d; 0x14e10e57a8670f2665e02224d07c19e; 0x7634f72ffc595e70cfde5e6334f543e1;
   0x7b8e6a97f562dad2b88925b740c2158f; 0x619351d453b8b215e6580d8e8809189e; 0x91a939b3a8dba194195584936492447;
   0x52c2763f42be8037f6681a238e8e4394; 0x783db9e5c43a21d5e0683492c1897818; 0x5d31dc3a04c6a4c3d7bec6f5eea41ec7;
   0xa30c5630507bca97247e5b46089ed97; 0x76ead5319e67ab5152fc5dd7c6683d7e; 0x133ece77abd95764b90577338ba979b6;
   0x5a87d0b204376655e11a1a9fe70fac34; 0x4767d956785dd7a966d4d47e81efd22b; 0x6e0cfcd91864af0ce098ea025efdfd36;
   0x1588152293629b1367fd99fbc06dd6de; 0x34f2811fae27a6b0637839bc13148d12; 0x3763c1531ff104cc9eff453a32133b83;
   0x6d5033d007eb4512deddd28a5c55e2f4; 0xc4467777c6a2561dcb710f3b66e5777; 0x3bc15590ee2ebcb5ac9f62d39631b834;
   0x5e1216b091eb4486f84d63fd1977f928; 0x3a676aab4456140c472bfa89016f5fa9; 0x528d1ecaba0afdb22bb3755ee9494293;
   0x3eaa23770093c84811b8c61f4106a20f; 0x4ef67a17ab322286907e578c5470d03; 0x4a2f056a518760ca196fd4eacacf2eaf;
   0x1c7cb440c994da93d91b34be3ed4eda7; 0xb33cb843bce992d4a038774886cefa8; 0x2fdecbbe8d5830a371dc8e32e4817ae6;
   0x5bd7bbef59739f90a49c0eace28606f3; 0x65c46b9df044ad7aae5dc892533d6198; 0x7b93053d7d71fdafe6b839997c0035de;
   0x5c1c837771647bfe16851c020bdf822d; 0x5680cf5c337486a403013d8491479b6f; 0x5c24a1c2c8062d57b4f682612fbc2a45;
   0x2c94cb72bbce384e846348e6a144ba02; 0x4959fc06f94550b26a5c1f061260608f; 0x7c0eedf192af918f37f1143c8636a796;
   0x4ba5d8927f34af8b1b58297f47549756; 0x489652beb89800be0f7f921567c84ada; 0x3b30d89cd0e754f2e37f825cacb10f13;
   0x621e666fcfc0f4aacc955b2e3904b514; 0x6a4053cd2eae36dd077df604fac055ef; 0x627d6b62f9a06d77f3aa2461b4ae96f5;
   0x1ed23ae25c7ac4b38f37ecc805864090; 0x62b90a819036c5888c6943d18c195c00; 0x50666ee2f13745e53ab77200a9f0858a;
   0x367d77d873eedaf83b378e55b7d7224f; 0xa35a00410159737c90f52bfc66a415; 0x121ac11309ea5ef3dfc4c8e623e187ed;
   0x748dffcd324f317529b5375201aa3ef9; 0x3675ad7dc78aebdcfa0f6534b72197e0; 0x7527cdc14f696093db26f621695a9e03;
   0x3645be9384e9ab72d4e7e6d0234c14c4; 0x71321c585f7347e1ded3efb8a86175f8; 0x5884367c8f02af4fc77bc1b846838ed7;
   0x49a920c4b6f3f3ae439270260cc2f1bc; 0x39836cddad780885fc4701788fd99fae; 0x58baf57e4c0cd36106c90421d3f15549;
   0x4e5d3774edd912c2f3f4f9ead1533ca0; 0xa920ffdf13e143066aae9014f3d2903; 0x30f54ecee12481e708bf2f52dc94e91;
   0x1e0f8ac84752a345384a0b1b105038ed; 0x1e91897c7c5488b557103336b842151; 0x70189d253f29182b15ea5b86440ccbf;
   0xc665ab65e54d771fda263862a6c31e6; 0x515af93e7a64eb1f15740b49cc0d94d1; 0x47b8df3cf64c07dff830208767a298ca;
   0x7ba34d20e3e1c02c0d5c173249c9625e; 0x442365172627313f105c2edba14dc414; 0x3986374d57229668250e7165d3393f0a;
   0x4507a2b8d6030237d20bc3849a0235f2; 0x4d9fbfa951547ef9fb82733c255c23c1; 0x1aa1a94c7e35fcd6e587ccaa4e7dc56d;
   0x77c438eb062cd57f119717d014887a2e; 0x2efb309715f45cb7ccd16aab0bd71590; 0x590a82b59456f88a90d49f03718303ad;
   0x1f4c1fb3dad3d69ad4035506205b3db1; 0x2e8bc190793475e852c425621a9ecb9b; 0x66fd2490c18ee660c8ef334de1d588ec;
   0x5bf82a38041ee79bb1b33bcf727f138e; 0x404951a693d8571b2b834c60a7965262; 0x2621ff589939e2ef7ad0d3ba5d29642e;
   0x711b1de8d91ee6c5846bd20395cc05bc; 0x6d7bda94b7fa7ec07dd1d3274b17ded3; 0x31e494c5b688e3a127051b1b5722cd74;
   0x6bd037a6d15d4ca6000b71fa2b4adda6; 0x4cb7d11b966dd3f644ebc32e6d2ba52c; 0x708fffc205ffa38ddd12850b5b034bb].
Lemma images_ok : iterates T 1 127 = images.
Proof. vm_compute. reflexivity. Qed.
Lemma cert_ok : map (app images) cert = columns (fun v => v) 0 127.
Proof. vm_compute. reflexivity. Qed.
Lemma charpoly_annihilates v : word 127 v -> hor T (true :: charpoly) v = 0.
Proof.
  intros H. apply (zero_on_cyclic T 127 _ 1 images cert); [apply tnext_linear|exact images_ok|exact cert_ok| |exact H].
  vm_compute. reflexivity.
Qed.

Lemma no_fixed_point v : word 127 v -> T v = v -> v = 0.
Proof.
  intros H F. pose proof (hor_fixed T (true :: charpoly) v F (linear_0 _ (tnext_linear _ _))) as E. rewrite (charpoly_annihilates v H) in E.
  replace (parity (true :: charpoly)) with true in E by reflexivity. symmetry. exact E.
Qed.

Lemma T_word v : word 127 v -> word 127 (T v).
Proof. apply tnext_word; (split; [vm_compute; discriminate|reflexivity]). Qed.

Lemma frobenius : powx charpoly X127 (2 ^ 127) = X127.
Proof. vm_compute. reflexivity. Qed.

Lemma power_of e v : powx charpoly X127 e = X127 -> word 127 v -> Nat.iter (Pos.to_nat e) T v = T v.
Proof.
  intros E H.
  destruct (powx_ok T charpoly 127 (tnext_linear _ _) ltac:(lia) T_word charpoly_annihilates X127) with (e := e) as (_ & P).
  - discriminate.
  - reflexivity.
  - intros w _. apply X127_ok, tnext_linear.
  - rewrite E in P. rewrite <- (P v H). apply X127_ok, tnext_linear.
Qed.
Lemma power_127 : exists n, Z.of_nat n = 2 ^ 127 /\ forall v, word 127 v -> Nat.iter n T v = T v.
Proof.
  assert (G : exists e, Zpos e = 2 ^ 127 /\ powx charpoly X127 e = X127) by (exists (2 ^ 127)%positive; split; [reflexivity|exact frobenius]).
  destruct G as (e & He & E). exists (Pos.to_nat e). split; [rewrite positive_nat_Z; exact He|]. intros v. apply power_of. exact E.
Qed.

(** ** Periods *)
Lemma iter_mul {A} (f : A -> A) k c m : Nat.iter k f c = c -> Nat.iter (m * k) f c = c.
Proof. intros H. induction m as [|m IH]; [reflexivity|]. cbn [Nat.mul]. rewrite iter_add, IH. exact H. Qed.

(** a p = b M + 1 for natural a, b when p and M are coprime. *)
Lemma bezout_nat (p M : nat) : (0 < p)%nat -> (0 < M)%nat -> rel_prime (Z.of_nat p) (Z.of_nat M) ->
  exists a b, (a * p = b * M + 1)%nat.
Proof.
  intros Hp HM R. apply rel_prime_bezout in R. destruct R as [u v E].
  set (t := Z.abs u + Z.abs v).
  assert (A : 0 <= u + t * Z.of_nat M) by nia. assert (B : 0 <= t * Z.of_nat p - v) by nia.
  exists (Z.to_nat (u + t * Z.of_nat M)), (Z.to_nat (t * Z.of_nat p - v)).
  apply Nat2Z.inj. rewrite Nat2Z.inj_add, !Nat2Z.inj_mul, !Z2Nat.id by assumption. nia.
Qed.

Lemma code_zero s : word 63 (fst s) -> word 64 (snd s) -> code s = 0 -> s = (0, 0).
Proof.
  intros A B E. apply code_inj; [exact A|exact B|split; [reflexivity || (cbn; lia)|reflexivity]|split; [cbn; lia|reflexivity]|exact E].
Qed.

Section Period.
Variable r : tinymt.
Hypothesis Ok : state_ok r.
Hypothesis P1 : mat1 r = MAT1.
Hypothesis P2 : mat2 r = MAT2.
Hypothesis NZ : masked r <> (0, 0).
Variables Mnat N127 : nat.
Hypothesis Mnat_Z : Z.of_nat Mnat = M127.
Hypothesis N127_succ : N127 = S Mnat.
Hypothesis power : forall v, word 127 v -> Nat.iter N127 T v = T v.
Let c : Z := code (masked r).

Lemma c_word : word 127 c.
Proof. pose proof (masked_word r Ok) as (A & B). apply code_word; assumption. Qed.

Lemma returns_iff k : masked (Nat.iter k tinymt64_next_state r) = masked r <-> Nat.iter k T c = c.
Proof.
  pose proof (code_iter r k Ok) as E. rewrite P1, P2 in E. fold c in E.
  pose proof (masked_word r Ok) as (A & B). pose proof (masked_word _ (iter_ok r k Ok)) as (A' & B').
  split; intros H.
  - rewrite <- E, H. reflexivity.
  - apply code_inj; try assumption. rewrite E. exact H.
Qed.


Lemma full_period : Nat.iter Mnat T c = c.
Proof.
  apply returns_iff. apply next_injective; [apply iter_ok; exact Ok|exact Ok|apply parameters_iter|].
  pose proof (masked_word _ (next_ok _ (iter_ok r Mnat Ok))) as (A & B). pose proof (masked_word _ (next_ok r Ok)) as (A' & B').
  apply code_inj; try assumption. rewrite (code_next r Ok), P1, P2. fold c.
  rewrite (code_next _ (iter_ok r Mnat Ok)), code_iter by exact Ok.
  pose proof (parameters_iter r Mnat) as P. unfold parameters in P.
  apply (f_equal fst) in P. cbn [fst] in P. pose proof (f_equal fst P) as Q1. pose proof (f_equal snd P) as Q2. cbn [fst snd] in Q1, Q2.
  rewrite Q1, Q2, P1, P2. fold c.
  rewrite <- (power c c_word), N127_succ. reflexivity.
Qed.

Lemma period_aux p : masked (Nat.iter p tinymt64_next_state r) = masked r <-> (2 ^ 127 - 1 | Z.of_nat p).
Proof.
  rewrite returns_iff. change (2 ^ 127 - 1) with M127. split.
  - intros H. destruct (Zdivide_dec M127 (Z.of_nat p)) as [D|ND]; [exact D|exfalso].
    assert (Hp : (0 < p)%nat). { destruct p; [|lia]. exfalso. apply ND. apply Z.divide_0_r. }
    assert (HM : (0 < Mnat)%nat). { apply Nat2Z.inj_lt. rewrite Mnat_Z. reflexivity. }
    destruct (bezout_nat p Mnat Hp HM) as (a & b & E).
    { rewrite Mnat_Z. apply rel_prime_sym. apply prime_rel_prime; [exact M127_prime|exact ND]. }
    pose proof (iter_mul T p c a H) as Ha. pose proof (iter_mul T Mnat c b full_period) as Hb.
    rewrite E in Ha. rewrite Nat.add_comm, iter_add, Hb in Ha.
    apply NZ. pose proof (masked_word r Ok) as (A & B). apply code_zero; [exact A|exact B|].
    apply (no_fixed_point c c_word). exact Ha.
  - intros (q & E). assert (Hq : 0 <= q). { assert (0 < M127) by reflexivity. nia. }
    replace p with (Z.to_nat q * Mnat)%nat; [apply iter_mul, full_period|].
    apply Nat2Z.inj. rewrite Nat2Z.inj_mul, Mnat_Z, Z2Nat.id by exact Hq. symmetry. exact E.
Qed.
End Period.

Lemma nat_of (z : Z) : 0 <= z -> exists n, Z.of_nat n = z.
Proof. intros H. exists (Z.to_nat z). apply Z2Nat.id. exact H. Qed.

Theorem period r p : state_ok r -> mat1 r = MAT1 -> mat2 r = MAT2 -> masked r <> (0, 0) ->
  (masked (Nat.iter p tinymt64_next_state r) = masked r <-> (2 ^ 127 - 1 | Z.of_nat p)).
Proof.
  intros Ok P1 P2 NZ. destruct (nat_of M127) as (M & HM); [vm_compute; discriminate|].
  destruct power_127 as (n & Hn & HP).
  assert (n = S M). { apply Nat2Z.inj. rewrite Hn, Nat2Z.inj_succ, HM. reflexivity. }
  exact (period_aux r Ok P1 P2 NZ M n HM H HP p).
Qed.

(** Two moments of a run. *)
Lemma masked_iter r1 r2 k : masked r1 = masked r2 -> state_ok r1 -> state_ok r2 -> parameters r1 = parameters r2 ->
  masked (Nat.iter k tinymt64_next_state r1) = masked (Nat.iter k tinymt64_next_state r2).
Proof.
  intros M O1 O2 P. pose proof (masked_word _ (iter_ok r1 k O1)) as (A & B). pose proof (masked_word _ (iter_ok r2 k O2)) as (C & D).
  apply code_inj; try assumption. rewrite !code_iter by assumption. unfold parameters in P.
  pose proof (f_equal (fun p => fst (fst p)) P) as P1. pose proof (f_equal (fun p => snd (fst p)) P) as P2. cbn [fst snd] in P1, P2.
  rewrite P1, P2, M. reflexivity.
Qed.

Theorem period_between r i j : state_ok r -> mat1 r = MAT1 -> mat2 r = MAT2 -> masked r <> (0, 0) ->
  (masked (Nat.iter i tinymt64_next_state r) = masked (Nat.iter j tinymt64_next_state r) <->
   (2 ^ 127 - 1 | Z.of_nat i - Z.of_nat j)).
Proof.
  intros Ok P1 P2 NZ.
  assert (W : forall i j, (j <= i)%nat ->
    (masked (Nat.iter i tinymt64_next_state r) = masked (Nat.iter j tinymt64_next_state r) <->
     (2 ^ 127 - 1 | Z.of_nat i - Z.of_nat j))).
  { clear i j. intros i j H.
    assert (E : Nat.iter i tinymt64_next_state r = Nat.iter j tinymt64_next_state (Nat.iter (i - j) tinymt64_next_state r)).
    { rewrite <- iter_add. f_equal. lia. }
    replace (Z.of_nat i - Z.of_nat j) with (Z.of_nat (i - j)) by lia.
    rewrite <- (period r (i - j) Ok P1 P2 NZ). rewrite E. split; intros M.
    - apply (iter_injective _ _ j); [apply iter_ok; exact Ok|exact Ok|apply parameters_iter|exact M].
    - apply masked_iter; [exact M|apply iter_ok; exact Ok|exact Ok|apply parameters_iter]. }
  destruct (Nat.le_gt_cases j i) as [H|H]; [apply W; exact H|].
  assert (D : (2 ^ 127 - 1 | Z.of_nat i - Z.of_nat j) <-> (2 ^ 127 - 1 | Z.of_nat j - Z.of_nat i)).
  { replace (Z.of_nat i - Z.of_nat j) with (- (Z.of_nat j - Z.of_nat i)) by ring. apply Z.divide_opp_r. }
  rewrite D, <- (W j i) by lia. split; intros M; symmetry; exact M.
Qed.

Lemma init_parameters r seed : mat1 (tinymt64_init r seed) = mat1 r /\ mat2 (tinymt64_init r seed) = mat2 r.
Proof.
  assert (R : forall l s, parameters (fold_left (fun r i => init_round i r) l s) = parameters s).
  { induction l as [|x l IH]; intros s; [reflexivity|]. cbn [fold_left]. rewrite IH. unfold init_round, set_status.
    destruct (Z.odd x); reflexivity. }
  assert (C : forall s, parameters (period_certification s) = parameters s).
  { intros s. unfold period_certification. destruct (_ && _); reflexivity. }
  assert (G : forall l s, let t := period_certification (fold_left (fun r i => init_round i r) l s) in mat1 t = mat1 s /\ mat2 t = mat2 s).
  { intros l s. pose proof (eq_trans (C (fold_left (fun r i => init_round i r) l s)) (R l s)) as P. cbv zeta.
    revert P. generalize (period_certification (fold_left (fun r i => init_round i r) l s)). intros t P.
    unfold parameters in P. split; [exact (f_equal (fun p => fst (fst p)) P)|exact (f_equal (fun p => snd (fst p)) P)]. }
  unfold tinymt64_init.
  match goal with |- mat1 (period_certification (fold_left ?f ?l ?s)) = _ /\ _ => exact (G l s) end.
Qed.

Lemma period_init r seed i j : word 64 (tmat r) -> word 64 seed -> mat1 r = MAT1 -> mat2 r = MAT2 ->
  (masked (Nat.iter i tinymt64_next_state (tinymt64_init r seed)) = masked (Nat.iter j tinymt64_next_state (tinymt64_init r seed)) <->
   (2 ^ 127 - 1 | Z.of_nat i - Z.of_nat j)).
Proof.
  intros Ht Hs P1 P2.
  destruct (init_ok r seed) as (O & NZ); [rewrite P1; split; [discriminate|reflexivity]|rewrite P2; split; [discriminate|reflexivity]|exact Ht|exact Hs|].
  destruct (init_parameters r seed) as (E1 & E2). apply period_between; [exact O|rewrite E1; exact P1|rewrite E2; exact P2|exact NZ].
Qed.

(** ** Parameters that are all zero *)
Definition charpoly0 : list bool :=
  [false; false; true; false; false; false; true; false; false; false; true; false; true; false; true; false; true; false; true; true; false; true; false; true; false; true; true; true; false; true; false; true; false; true; false; true; false; false; false; true; false; false; false; false; true; false; true; true; true; false; false; true; true; false; true; true; false; false; true; false; true; false; true; false; true; false; false; true; true; true; true; true; true; true; true; true; true; true; true; false; false; false; true; true; true; false; true; true; true; true; false; true; false; false; false; true; true; false; true; true; true; true; true; false; false; true; true; true; true; true; true; true; true; true; false; true; false; false; false; false; true; true; true; false; true; false; true].
Notation T0 := (tnext 0 0).
(** The first 127 images of 1, and the combinations of them giving 2^0, 2^1, ... *)
Definition images0 : list Z :=
  [0x1; 0x400c0080400c008000000000000000; 0xa00000800020040080180100801801; 0x1a0401181e06c008140000100004008;
   0x50020058a81080b8340802303c0d801; 0x13818cf71825bca90a00400b15021017; 0x2d0b8a0fd56bc97a270319ee304b7952;
   0x303ddc74828937ff5a17141faad792f4; 0x2d7e8687da374d80607bb8e905126ffe; 0x734a72c0b8ddd907dafd0d0fb46e9b00;
   0x5cc6d25149a51eee6694e58171bbb20f; 0x4ff9112dc7809c6fb98da4a2934a3ddc; 0x3ad99549d58d691f1ff2225b8f0138df;
   0x1ab17af111fd983475b32a93ab1ad23e; 0x596b1a04ece786d4b562f5e223fb3068; 0x7c431329b06f0dc4b2d63409d9cf0da9;
   0x18610a9c2b3cfbf5f886265360de1b89; 0x23016f3d6cb82a31b0c215385679f7eb; 0x4e16b07920a2081d4602de7ad9705463;
   0x29698dda255639a91c2d60f24144103a; 0x3d62d12641a83c4852d31bb44aac7352; 0x40f1cca011e1b52fac5a24c83507890;
   0x1ebf592163436afd881e3994023c36a5; 0x94af8f2603a7e61bd7eb242c686d5fb; 0x149436629df381789295f1e4c074fcc3;
   0x2140a7816e7d065529286cc53be702f1; 0x7905301450b945f6c2814f02dcfa0caa; 0x923647dee3c6bdaf20a6028a1728bed;
   0x53168fe4000a4dad9246c8fbdc78d7b5; 0x6e2ee31e1c54f0da62d1fc800149b5b; 0x39f000b023e775690dc5dc63c38a9e1b;
   0x421755e70478b8c773e0016047ceead2; 0x72285f01eda30e80842eabce08f1718e; 0x2ccdf0d6a77f4e3ce450be03db461d01;
   0x32d262ea30116fc6d99be1ad4efe9c79; 0x797e51687c985ab065a4c5d46022df8d; 0x2d35ebcc851baa3c72fca2d0f930b560;
   0x1f0f53c73f4741b0da6bd7990a375478; 0x55f844e61c5f3422be1ea78e7e8e8361; 0x2eedc56c3d404482abf089cc38be6845;
   0x7d907108f7818f3bdddb8ad87a808905; 0x4a7914b535a2f71fb20e211ef031e77; 0x66dd52853f3efa44094f2296a6b45ee3;
   0x1d5e224e6230443dcdbaa50a7e7df488; 0x7fdaebaa8d7df3623abc449cc460887b; 0x7642b38e8c60b44fffb5d7551afbe6c4;
   0x2996f3e6354d47186c85671d18c1689f; 0x224236b9efcf2cadd32de7cc6a9a8e30; 0x35a49e687be21b4244846d73df9e595b;
   0x592cb23e79cb9a7ceb493cd0f7c43684; 0x49739e9d4d5d754a3259647cf39734f9; 0x765c30f17c367cdc92e73d3a9abaea94;
   0x12fed5b75c5c6cec6cb861e2f86cf9b9; 0x49a89c6c77641f7025fdab6eb8b8d9d8; 0x219d5302418decf4935138d8eec83ee0;
   0x240d9d6c49aeb784433aa604831bd9e9; 0x1f0fd6d7a70e999cc81b3ad8935d6f08; 0x6171618731621b493e1fadaf4e1d3339;
   0x5097748f986d78e3c2e2c30e62c43692; 0x71689dd6d522c032a12ee91f30daf1c7; 0x2384219c6f02315ce2d13badaa458065;
   0x5bd620e9c2a3286c7084338de0462b9; 0x5e0b71d2ef6e1f7a0b7ac41d3854650d; 0x6eb401a40a989514bc16e3a5dedc3ef4;
   0xe431639c90a44475d68034815312a29; 0x51cd74abf61e9af71c862c739214888e; 0xc0a5cea8fa607d3239ae957ec3d35ee;
   0x2683fddd503e16fe9814b9d51f4c0fa6; 0x8c3a65d6ebf09e3cd07fbbaa07c2dfd; 0x2908273940333f7511874cbadd7e13c7;
   0x4711e93730d04d1a52104e7280667eea; 0x6bd6fbc6d067d36f0e23d26e61a09a34; 0x1f236650c2acbe8fd7adf78da0cfa6de;
   0xf3a63a905f3495a3e46cca185597d1f; 0x2d5c021699d6fa599e74c7520be692b4; 0x6b4d9718c3f3e37e5ab8042d33adf4b3;
   0x30be5f80647a4d8bd69b2e3187e7c6fc; 0xad15a257fbc1815e17cbf00c8f49b17; 0x333443b63a6d98715a2b44aff78302b;
   0x2f4f7d5298b27e4d06668876c74db30e; 0x7156553e4b8a3512de9efaa53164fc9a; 0x3a174f8709a25200e2acaa7c97146a25;
   0xe61d5e7c0ff8589f42e9f0e1344a401; 0x3e190dc6e77e317c1cc3abcf81ff0b13; 0x4ba940fc200142acfc321b8dcefc62f8;
   0x239cfdd9cdf5769d975281f840028559; 0x1796aedbdb6e9bcbc739fbb39beaed3b; 0x5c243c9d9e8d133daf2d5db7b6dd3797;
   0x1a2b5809cf0d6eee3848793b3d1a267b; 0x3c73d8e37d39985fb456b0139e1adddc; 0x22a60299d22057878e7b1c6fa7330bf;
   0x16e0dac71b8397ec8454c0533a440af0; 0x595c7f93c4ac08102dc1b58e37072fd9; 0x246fb2e56ec36b5ab2b8ff2789581020;
   0x2019da726dbb89ac8df65cadd86d6b5; 0x63bad3cdf77ec40384033b4e4db77135; 0x61082600db4e43e9c775a79beefd8807;
   0x557175a749a720e442104c01b69c87d3; 0x4901d4213116b584aae2eb4e934e41c8; 0x5d0c98dccd54376d9203a842622d6b09;
   0x34fb584c20a005d0ba1931b99aa86edb; 0x51ca09647246b8f2e9f6b09841400ba1; 0x1ddd8f6af35e6924239412c8e48d71e5;
   0x21cb0e156ecc9bc9bbbb1ed5e6bcd248; 0x53eb45d80c2f0a4b43961c2add993793; 0x637ace994442861a7d68bb0185e1496;
   0x6618dda2c2d2969d8c6f59d3288850c3; 0x768e9fae3f944ade4c31bb4585a52d3b; 0x7a0f9620778b19b6d1d3f5c7f2895bc;
   0x32028245f06a32078f41f2c40ef16336; 0x577adf517451fca6405048be0d4640f; 0xa5d9a4e1edda80f8aef5bea2e8a3f94;
   0x259ac2b005f250e714bb349c3dbb501f; 0x6f26351ff0a4e9a44b3585600be4a1ce; 0xa88919b3f094db9de4c6a3fe149d348;
   0x760c92cd8ea98863951123367e129b73; 0x56d3b5d06120b996ec19259b1d5310c7; 0x4f99ca84aaf818102da76ba0c241732d;
   0x478cfc7d40ac866f9f33950955f03020; 0x38809bb9f6b8d6230f19f8fa81590cdf; 0x77d2fc1f8fc7fce971013773ed71ac46;
   0x1785d9ddbeac56fbefa5f83f1f8ff9d2; 0x5fda14dcd5e7b4c62f0bb3bb7d58adf7; 0x14b9d532deeba1883fb429b9abcf698c;
   0xdf286a753855010a973aa65bdd74310; 0x59bbbfe8e593aedb9be50d4ea70aa021; 0xb8c163a2240a0e5b3777fd1cb275db7].
Definition cert0 : list Z :=
  [0x1; 0x69dbb35c7651b9a664103df6cd242fae; 0x668b893466bfd7ec3858dd8068ddc26f; 0x5e526ff09edcd26394a29b9147561fad;
   0x5335afe6940489c01d101578681ec645; 0x54b73c66cadf7ae9fc22f7b1a4db5129; 0x44f9d18a0dd786b26150e811c3e5c056;
   0x4a761581a04a9868f3efd64883f907e5; 0x193967657f69c51a5dd5359bf254d50c; 0x424d0ae27892378eda34f9e45b445833;
   0x51964a0530688dcf0a04f2c2b6488f67; 0x44c2edf1b375cffd000e0fec616a1dc0; 0x23783672014b9934e4bcc7864d28edbb;
   0x1507fe65f4d51ab7287d97154d743d04; 0x500d056015dc831853908e2bc36ebf3d; 0x7bc60c7811e765e8479f9789aa164f55;
   0x3409c055b8f304dc1ff7333bbe6df3e9; 0x2bcc6030378b0a75cccb0265e09cf0bf; 0x3cecdf7158f0a048a11dbfa38c03f1b7;
   0x43db43cd496e2e5eaaf0f29e7b7a6834; 0x2ba1bc1c7e5ae271616e87823da034f6; 0x12e9c8e171e1a4ff75d3712834c90ec3;
   0x3757b9049901f7398a38f30c37ebd8bd; 0x2899f782b70f4c6b2a73f4beb32c5b8d; 0x4598740fec426513e11f40aa6485cffc;
   0x2b3acd6897433857fb421533a38efa23; 0xd954dbb88f0a0d5afeb9e1cb35d745; 0x2f2bdba8f618bcb905fe7f8d19e47e5f;
   0x7f2bee6ed68ca24e58197ef7a4322298; 0xa1768c83ab2d37188e922f97ffd6161; 0xa0eb2acb7a37eba5956e0be0fc9c5e9;
   0x44cd4259b2bb8af158abdb5fb91233a3; 0x101c0bae69f5b89c872f16255fa3051b; 0x675eff80d2466df94294d41a66d1da6a;
   0x6abccb89322473208646552baba6bd80; 0x27f0159559ae10e8dbbd531dcbcb5260; 0x5d961f744304d9ff579d5a46043f3740;
   0x337fb303077e6de1f5bdf5700f45de57; 0x1ed1d42fd029b365b0d3a126ebadc20d; 0x3431058268871d362b00e46d54b90139;
   0x7b6b203e7da974bca0c822945df97d8a; 0x43851c4736bac306c2bac3611df4a46e; 0x29238586adf58661259cfc3b6afcdb78;
   0x14b42e40fc7842245a8179e7f4875964; 0x662c1572d57c9eb1e0d2569013686b05; 0x3ed02c887f7d1be0784e6d2dd37fea36;
   0x366cdc1c11ecd979422c9e26bb6c3505; 0x7f41530630380ed819cacaa542f06f0b; 0x185712a22e69712cbd3399e7098e0693;
   0x1bab12fe7a890406f14561406affd4d5; 0x4cabf10e3718814c418a396dd0c10adb; 0x5399fbad9ce39fedc313590715e607f8;
   0x40a2bb406b2b7bcfe693b0d7fb258c58; 0x1c791744a0f092905c12a45ef6f871a; 0x1843a44d9d5358b50582dd348b1c7bc3;
   0x5d542af4ddbcc5d8c917f1219237c4a2; 0x29ae28abf78d278353f98d363c74e9a9; 0x2b80b27f5137bdb2ea7b31d8dfb6ff4;
   0x5db0674724460cc7db8efb98fcbbf2f7; 0x5c09297f0ed622d3d022160b6a294507; 0x5b8434fe8ee4a5cdd14ae2659c37571f;
   0xa460e8186a49708de70757ee4cf352; 0x12e26a618aebc2d438f2de627a5e12bf; 0x488aad5d5442e6caa7ff8ef46f9ff43b;
   0x5d366af24d7965755618230dabb63879; 0x1d44e0f301a2dad0838b3db4332cd762; 0x39f1f55585f05d98f90c58ad8b62e441;
   0x3225d5488a442beab4679130338e515d; 0x36660f08fbf22157a5cc029d19290d87; 0x6685394f0b3c45eb51f89c192217207d;
   0x27c7b21c242d32962de7b398ad9a702d; 0x15a5d4d7c0dd2797733faf560b7ebf8a; 0x2be122ce1099ca8310d10be219798010;
   0x31d7c25afc1e2de228f9055782f33cee; 0x66a39b096acf28038009081a51df1320; 0x7a4e801655acb364311d2ab104236f5c;
   0x1f8401570ebf97ecbc435c9febce2386; 0x30812a8d4b70245edda747ca4d461499; 0xeafa7194d5631d6c3afd2b910829cc5;
   0x66878d2230c86078b7f324520ec4fe27; 0x76a0fd75780c69858d510da37f4d7cda; 0x6a101d94a0ca16a6566cee86259dfd56;
   0x6236e22bedd93971ff888bd146c75c2e; 0x3e71621241779349d1d9c44323702e8d; 0x531781cc9d53904a68c5474841327d98;
   0x6476c8db81c3ea6fe8db047e4381c0d9; 0x745fa11eb8ca0c9418b5801585258271; 0x67544e081a63579a1190e0ff56c72802;
   0x762d068188a042b6a11c915e1dd67308; 0x483f53eb308a69c1507e6be54130c8dd; 0x70349b21d956042f20fecebffa89b54a;
   0x40be1959bdcaf3697415c18c762b33d4; 0x479671f173a95c03eb623d71af9c25eb; 0x478346a7b830272dd2021e1567b2d327;
   0x2e214e283fa4a9435301b8040a04de48; 0x5098a324094d8218634713c39fed73ac; 0x54f18040bb655b05e3debe1755b9375f;
   0x5fe2ae4dab364ab0c5657fbe7e75e340; 0x34081f5ff579189cb663fa932e2efb50; 0x735d10ce6286b500fc53f7650620ace0;
   0x624ac7dfd083bddba89c813c6778c546; 0x593393656c7f8c1dcf45ff41f1e4d731; 0x66a32a1e08867567997f18af917a759f;
   0x46deb021437dcee2f0ac33de7305c34f; 0x62479264ade7a285a3e7a2d1930ef659; 0x3db24745fb0f4551b7528226df82b6c4;
   0x1eee39608244633677c1c5140ec4f5d6; 0x1db0b296eb803723b744f32c7543aabd; 0x21b83acc40c3961044695bbb3ac01f2d;
   0x65d01f4f4d58530f44c55fc18945dbbd; 0x86b57d87c66ef7eb2d021038c17acb4; 0x5cf636ae6d1f2f704455dbe0e2d6f1e0;
   0x5ef436dc138f60cf2e185f14301fca85; 0x2274a4d478d62720c6b0ab2f573e7b8c; 0x7a55067b5292501b229af5849f150404;
   0x60f3e6e05ebec62815da68bc06b74a74; 0x12459ce6f088dbd8721bf6718d84497; 0x5ce8db3607b8122520bc3d5aa10db218;
   0x73fe3f8eb362a734ad9c09b15b2c26f3; 0x75f391a3580952885dfac5594dd16947; 0x3e40eb40f9ac636b9f46a934b06d80e;
   0x3be2f9b9e227ec6e91b608a0ed79ffb6; 0x3a87109dddffd5709fcc93fab0a213be; 0x3ecc83dc9dd411e19e101da33db308aa;
   0xf6509c145f6dc8cb1484fc196a8afb; 0x5319f20c1bdcc57483743fa728eeefda; 0x9c984b6e255f60972299d116ac33446].
Lemma images0_ok : iterates T0 1 127 = images0.
Proof. vm_compute. reflexivity. Qed.
Lemma cert0_ok : map (app images0) cert0 = columns (fun v => v) 0 127.
Proof. vm_compute. reflexivity. Qed.
Lemma charpoly0_annihilates v : word 127 v -> hor T0 (true :: charpoly0) v = 0.
Proof.
  intros H. apply (zero_on_cyclic T0 127 _ 1 images0 cert0); [apply tnext_linear|exact images0_ok|exact cert0_ok| |exact H].
  vm_compute. reflexivity.
Qed.
Definition short_period : positive := 55384498973287718031895128100394325.
Lemma short_power : powx charpoly0 X127 short_period = one127.
Proof. vm_compute. reflexivity. Qed.

Lemma identity_period p r : powx charpoly0 X127 p = one127 -> state_ok r -> mat1 r = 0 -> mat2 r = 0 ->
  masked (Nat.iter (Pos.to_nat p) tinymt64_next_state r) = masked r.
Proof.
  intros M Ok P1 P2.
  assert (W : forall v, word 127 v -> word 127 (T0 v)).
  { intros v Hv. apply tnext_word; [split; [lia|reflexivity]|split; [lia|reflexivity]|exact Hv]. }
  destruct (powx_ok T0 charpoly0 127 (tnext_linear 0 0) ltac:(lia) W charpoly0_annihilates X127) with (e := p) as (_ & S);
    [discriminate|reflexivity|intros w _; apply X127_ok, tnext_linear|].
  rewrite M in S. clear M.
  pose proof (masked_word r Ok) as (A & B). pose proof (masked_word _ (iter_ok r (Pos.to_nat p) Ok)) as (C & D).
  apply code_inj; try assumption. rewrite code_iter, P1, P2 by exact Ok.
  rewrite <- (S _ (code_word _ A B)). apply one127_ok, tnext_linear.
Qed.

Lemma zero_parameters : exists p : nat, (0 < p)%nat /\ Z.of_nat p < 2 ^ 116 /\
  forall r, state_ok r -> mat1 r = 0 -> mat2 r = 0 -> masked (Nat.iter p tinymt64_next_state r) = masked r.
Proof.
  assert (G : exists q : positive, Z.pos q < 2 ^ 116 /\ powx charpoly0 X127 q = one127).
  { exists short_period. split; [reflexivity|exact short_power]. }
  destruct G as (q & B & M). exists (Pos.to_nat q). split; [apply Pos2Nat.is_pos|].
  split; [rewrite positive_nat_Z; exact B|]. intros r. apply identity_period. exact M.
Qed.

Lemma zero_parameters_init : exists p : nat, (0 < p)%nat /\ Z.of_nat p < 2 ^ 116 /\
  forall r seed, mat1 r = 0 -> mat2 r = 0 -> word 64 (tmat r) -> word 64 seed ->
    masked (Nat.iter p tinymt64_next_state (tinymt64_init r seed)) = masked (tinymt64_init r seed).
Proof.
  destruct zero_parameters as (p & H0 & Hp & Z0). exists p. split; [exact H0|]. split; [exact Hp|].
  intros r seed P1 P2 Ht Hs.
  destruct (init_ok r seed) as (O & _); [rewrite P1; split; [lia|reflexivity]|rewrite P2; split; [lia|reflexivity]|exact Ht|exact Hs|].
  destruct (init_parameters r seed) as (E1 & E2). apply Z0; [exact O|rewrite E1; exact P1|rewrite E2; exact P2].
Qed.

Definition stuck : tinymt := mkTinymt 0x51535d3b1a7b2cd5 0xe621586ae7fb4da3 0 0 0.
Lemma stuck_period : state_ok stuck /\ masked stuck <> (0, 0) /\
  masked (Nat.iter 5 tinymt64_next_state stuck) = masked stuck.
Proof.
  split; [|split; [vm_compute; discriminate|vm_compute; reflexivity]].
  repeat split; vm_compute; congruence.
Qed.
