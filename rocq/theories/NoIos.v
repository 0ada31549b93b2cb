(** * NoIos: the algorithms throw nothing but std::runtime_error. *)
From Coq Require Import ZArith List Bool String.
From Verif Require Import Base Num Common PoissonPmf FFTConv Ecdf2 Ecdf1New Ecdf1Mns.
Local Open Scope Z_scope.

Definition no_ios {A} (o : outcome A) : Prop := o <> Throw IosFailure.

Lemma ni_ok {A} (a : A) : no_ios (Ok a). Proof. discriminate. Qed.
Lemma ni_rt {A} s : no_ios (A := A) (Throw (RuntimeError s)). Proof. discriminate. Qed.
Lemma ni_undef {A} s : no_ios (A := A) (Undef s). Proof. discriminate. Qed.
Lemma ni_hang {A} : no_ios (A := A) Hang. Proof. discriminate. Qed.
Lemma ni_bind {A B} (o : outcome A) (k : A -> outcome B) :
  no_ios o -> (forall a, no_ios (k a)) -> no_ios (bind o k).
Proof. unfold no_ios. destruct o; simpl; intros H K; try discriminate; auto. intros E. apply H. congruence. Qed.
Lemma ni_loop {S} k : forall i (body : Z -> S -> outcome S) s, (forall i s, no_ios (body i s)) -> no_ios (loop k i body s).
Proof. induction k as [|k IH]; intros; simpl; [apply ni_ok|]. apply ni_bind; auto. Qed.
Lemma ni_for {S} lo hi (s : S) body : (forall i s, no_ios (body i s)) -> no_ios (for_ lo hi s body).
Proof. intros. apply ni_loop; auto. Qed.
Lemma ni_loop_down {S} k : forall i (body : Z -> S -> outcome S) s, (forall i s, no_ios (body i s)) -> no_ios (loop_down k i body s).
Proof. induction k as [|k IH]; intros; simpl; [apply ni_ok|]. apply ni_bind; auto. Qed.
Lemma ni_for_down {S} lo hi (s : S) body : (forall i s, no_ios (body i s)) -> no_ios (for_down lo hi s body).
Proof. intros. apply ni_loop_down; auto. Qed.
Lemma ni_for_each {A S} (l : list A) : forall (s : S) body, (forall i s, no_ios (body i s)) -> no_ios (for_each l s body).
Proof. induction l as [|x l IH]; intros; simpl; [apply ni_ok|]. apply ni_bind; auto. Qed.
Lemma ni_rd {A} (l : list A) i : no_ios (rd l i).
Proof. unfold rd. destruct (i <? 0); [discriminate|]. destruct (nth_error l (Z.to_nat i)); discriminate. Qed.
Lemma ni_wr {A} (l : list A) i x : no_ios (wr l i x).
Proof. unfold wr. destruct (_ || _); discriminate. Qed.
Lemma ni_addr {A} (l : list A) i : no_ios (addr l i).
Proof. unfold addr. destruct (_ || _); discriminate. Qed.
Lemma ni_cassert a c t : no_ios (cassert a c t).
Proof. unfold cassert. destruct (_ && _); discriminate. Qed.
Lemma ni_blit {A} (src : list A) so dst o len : no_ios (blit src so dst o len).
Proof. apply ni_for. intros. apply ni_bind; [apply ni_rd|intros; apply ni_wr]. Qed.
Lemma ni_fill {A} (a : list A) lo hi v : no_ios (fill a lo hi v).
Proof. apply ni_for. intros. apply ni_wr. Qed.

Create HintDb ni.
#[local] Hint Resolve ni_ok ni_rt ni_undef ni_hang ni_rd ni_wr ni_addr ni_cassert ni_blit ni_fill : ni.
Ltac ni := repeat first
  [ solve [auto with ni]
  | apply ni_bind; [|intros]
  | apply ni_for; intros | apply ni_for_down; intros | apply ni_for_each; intros
  | match goal with
    | |- no_ios (if ?b then _ else _) => destruct b
    | |- no_ios (match ?x with _ => _ end) => destruct x
    | |- no_ios (let _ := _ in _) => cbv zeta
    end ].

Section NoIos.
Context {N : num} (E : env N).
Notation T := (car N).

Lemma ni_check name n (v : list T) : no_ios (check_boundary_vector name n v).
Proof. unfold check_boundary_vector, front, back. ni. Qed.
Lemma ni_conv sz (a : list T) oa b ob d od : no_ios (convolve_same_size sz a oa b ob d od).
Proof. unfold convolve_same_size. ni. Qed.
Lemma ni_pmf (l : T) k : no_ios (poisson_pmf E l k).
Proof. unfold poisson_pmf. ni. Qed.
Lemma ni_make k : no_ios (pmfgen_make E k).
Proof. unfold pmfgen_make. ni. Qed.
Lemma ni_eval g l k : no_ios (evaluate_pmf E g l k).
Proof. unfold evaluate_pmf. ni. Qed.
Lemma ni_array g k l : no_ios (compute_array E g k l).
Proof. unfold compute_array. ni. Qed.
Hint Resolve ni_check ni_conv ni_pmf ni_make ni_eval ni_array : ni.
Lemma ni_plan p r : no_ios (memoized_plan E p r).
Proof. unfold memoized_plan. ni. Qed.
Lemma ni_czp (s : list T) so d a b : no_ios (copy_zero_padded s so d a b).
Proof. unfold copy_zero_padded. ni. Qed.
Lemma ni_ecp sz (a b d : list (cplx N)) c : no_ios (elementwise_complex_product sz a b d c).
Proof. unfold elementwise_complex_product. ni. Qed.
Lemma ni_r2c s len i o : no_ios (execute_r2c E s len i o).
Proof. unfold execute_r2c. ni. Qed.
Lemma ni_c2r s len i o : no_ios (execute_c2r E s len i o).
Proof. unfold execute_c2r. ni. Qed.
Hint Resolve ni_plan ni_czp ni_ecp ni_r2c ni_c2r : ni.
Lemma ni_fft f sz a oa b ob o oo : no_ios (fft_convolve_same_size E f sz a oa b ob o oo).
Proof. unfold fft_convolve_same_size. ni. Qed.
Hint Resolve ni_fft : ni.
Lemma ni_update t (d : list T) x y : no_ios (update_dest_buffer_and_step_counts t d x y).
Proof. unfold update_dest_buffer_and_step_counts. ni. Qed.
Hint Resolve ni_update : ni.
Lemma ni_step i u bd s : no_ios (e2_step E i u bd s).
Proof. unfold e2_step. ni. Qed.
Hint Resolve ni_step : ni.
Lemma ecdf2_no_ios b B u : no_ios (ecdf2 E b B u).
Proof. unfold ecdf2, poisson_process_noncrossing_probability, join_all_bounds, std_sort. ni. Qed.

Lemma ni_sub n g I i p l d : no_ios (subtract_exits E n g I i p l d).
Proof. unfold subtract_exits. ni. Qed.
Hint Resolve ni_sub : ni.
Lemma ni_inner n i B a b c s : no_ios (inner_step E n i B a b c s).
Proof. unfold inner_step. ni. Qed.
Hint Resolve ni_inner : ni.
Lemma ni_outer n i B s : no_ios (outer_step E n i B s).
Proof. unfold outer_step. ni. Qed.
Hint Resolve ni_outer : ni.
Lemma ni_outer_loop fuel : forall n k j i B s, no_ios (outer_loop E fuel n k j i B s).
Proof. induction fuel as [|fuel IH]; intros; simpl; ni. Qed.
Hint Resolve ni_outer_loop : ni.
Lemma new_B_no_ios B : no_ios (ecdf1_new_B E B).
Proof. unfold ecdf1_new_B, poisson_B_noncrossing_probability_n2, jump_size_for. ni. Qed.
Hint Resolve new_B_no_ios : ni.
Lemma new_b_no_ios b : no_ios (ecdf1_new_b E b).
Proof. unfold ecdf1_new_b. ni. Qed.

Lemma ni_evaluate {F : num} (p : ptm F) x : no_ios (evaluate p x).
Proof. unfold evaluate. ni. Qed.
Lemma ni_integrate {F : num} (p : ptm F) : no_ios (integrate p).
Proof. unfold integrate. ni. Qed.
Hint Resolve ni_evaluate ni_integrate : ni.
Lemma ni_mns LD b i s : no_ios (mns_step E LD b i s).
Proof.
  unfold mns_step, set_additive_coefficient, set_multiplicative_coefficient, maximum_multiplicative_coefficient,
    ldexp_all_multiplicative_coefficients, get_multiplicative_coefficient, check_degree. ni.
Qed.
Hint Resolve ni_mns : ni.
Lemma mns_b_no_ios b : no_ios (ecdf1_mns2016_b E b).
Proof. unfold ecdf1_mns2016_b, mns_b, ptm_make, set_multiplicative_coefficient, check_degree. ni. Qed.
Hint Resolve mns_b_no_ios : ni.
Lemma mns_B_no_ios B : no_ios (ecdf1_mns2016_B E B).
Proof. unfold ecdf1_mns2016_B. ni. Qed.
End NoIos.
