(** * AccCliCase: a C library meeting [strtod_correct], and concrete files. *)
From Coquelicot Require Import Coquelicot.
From Flocq Require Import Core.Core IEEE754.BinarySingleNaN.
From Coq Require Import ZArith Reals List Bool Lia Lra String Sorted Ascii.
From Verif Require Import Base Num XReal Ecdf2 StringUtils Cli Spec StringSpec CliSpec CliFacts TextMore ExactEnv XEcdf2Main Cases.
From Verif Require Import StrtodSpec Binary64 Binary64Facts B64Round AccPmf AccFft AccCases LongDouble LdRound AccMnsEval AccMns AccMnsCase.
Import List. Import ListNotations.
Local Open Scope R_scope.
Local Open Scope string_scope.

(** The library of AccCases.v with a correctly rounded strtod. *)
Definition cr_strtod (l : literal) : f64 * bool :=
  match l with
  | LDec neg m e => (of_R ((if neg then -1 else 1) * IZR m * powerRZ 10 e), false)
  | LHex neg m e => (of_R ((if neg then -1 else 1) * IZR m * powerRZ 2 e), false)
  | LInf neg => (B754_infinity neg, false)
  | _ => (B754_nan, false)
  end.
Definition text_libm : libm := mkLibm (lm_exp cr_libm) (lm_log cr_libm) (lm_lgamma cr_libm) (lm_pow cr_libm) (lm_frexp_special cr_libm) cr_strtod.
Definition text_env (a : bool) : env (Bnum text_libm) :=
  mkEnv (Bnum text_libm) a (fun _ _ => B754_nan) isort cr_r2c cr_c2r (fun _ => EmptyString) (x87 text_libm cr_libml).

Lemma text_strtod : strtod_correct text_libm.
Proof.
  intros l v Hl Hv _.
  assert (HR : is_finite (of_R v) = true /\ B2R (of_R v) = rnd v).
  { apply of_R_ok. rewrite Rabs_pos_eq by lra. apply Rle_trans with (bpow radix2 0); [simpl; lra|apply bpow_le; lia]. }
  exists (of_R v). split; [|exact HR]. destruct l; cbn [literal_value] in Hl; try contradiction; rewrite Hl; reflexivity.
Qed.
Lemma text_accurate : libm_accurate text_libm u64.
Proof. destruct cr_accurate as [H1 H2 H3]. constructor; assumption. Qed.
Lemma text_fft a : fft_accurate (text_env a) u64.
Proof. exact (cr_fft_accurate a). Qed.
Lemma text_sort a : sort_ok (text_env a).
Proof. apply isort_ok. reflexivity. Qed.

(** A file with both boundaries, and a file with one of them. *)
Definition two_text : string := "0.1, 0.3" ++ String newline ("0.8, 1" ++ String newline "").
Definition one_text : string := "0.1, 0.3" ++ String newline (String newline "").
Definition other_text : string := String newline ("0.8, 1" ++ String newline "").
Definition text_fs (f : string) : option string :=
  if f =? "two.txt" then Some two_text else if f =? "b.txt" then Some one_text else if f =? "B.txt" then Some other_text else None.
Definition text_b : list R := [1/10; 3/10].
Definition text_B : list R := [8/10; 1].

Lemma text_valid : valid_boundary text_b /\ valid_boundary text_B.
Proof. unfold text_b, text_B. split; (split; [repeat constructor; lra|repeat constructor; lra]). Qed.
Lemma big_normal v : 1/10 <= v -> normal v.
Proof. intros H. right. apply Rle_trans with (bpow radix2 (-4)); [apply bpow_le; lia|simpl; lra]. Qed.
Lemma text_normal : Forall normal text_b /\ Forall normal text_B.
Proof. unfold text_b, text_B. split; (apply Forall_cons; [apply big_normal; lra|apply Forall_cons; [apply big_normal; lra|apply Forall_nil]]). Qed.

Lemma text_values : 1 * IZR 1 * powerRZ 10 (-1) = 1/10 /\ 1 * IZR 3 * powerRZ 10 (-1) = 3/10 /\
  1 * IZR 8 * powerRZ 10 (-1) = 8/10 /\ 1 * IZR 1 * powerRZ 10 0 = 1.
Proof. repeat split; simpl; lra. Qed.
Ltac read_text := lazy -[IZR powerRZ Rmult Rinv]; reflexivity.
Lemma holds_of f c b B : text_fs f = Some c ->
  read_and_check_boundaries_file (N := Xnum some_frexp) text_fs f = Ok (map Fin b, map Fin B) ->
  file_holds (N := Xnum some_frexp) c (map Fin b) (map Fin B).
Proof. intros F R. destruct (holds_read _ _ _ _ R) as (c' & F' & H). congruence. Qed.
Lemma two_holds : file_holds (N := Xnum some_frexp) two_text (map Fin text_b) (map Fin text_B).
Proof.
  apply (holds_of "two.txt"); [reflexivity|].
  assert (X : read_and_check_boundaries_file (N := Xnum some_frexp) text_fs "two.txt" =
    Ok ([Fin (1 * IZR 1 * powerRZ 10 (-1)); Fin (1 * IZR 3 * powerRZ 10 (-1))],
        [Fin (1 * IZR 8 * powerRZ 10 (-1)); Fin (1 * IZR 1 * powerRZ 10 0)])) by read_text.
  destruct text_values as (V1 & V3 & V8 & V0). rewrite ?V1, ?V3, ?V8, ?V0 in X. exact X.
Qed.
Lemma one_holds : file_holds (N := Xnum some_frexp) one_text (map Fin text_b) (map Fin []).
Proof.
  apply (holds_of "b.txt"); [reflexivity|].
  assert (X : read_and_check_boundaries_file (N := Xnum some_frexp) text_fs "b.txt" =
    Ok ([Fin (1 * IZR 1 * powerRZ 10 (-1)); Fin (1 * IZR 3 * powerRZ 10 (-1))], [])) by read_text.
  destruct text_values as (V1 & V3 & V8 & V0). rewrite ?V1, ?V3, ?V8, ?V0 in X. exact X.
Qed.
Lemma other_holds : file_holds (N := Xnum some_frexp) other_text (map Fin []) (map Fin text_B).
Proof.
  apply (holds_of "B.txt"); [reflexivity|].
  assert (X : read_and_check_boundaries_file (N := Xnum some_frexp) text_fs "B.txt" =
    Ok ([], [Fin (1 * IZR 8 * powerRZ 10 (-1)); Fin (1 * IZR 1 * powerRZ 10 0)])) by read_text.
  destruct text_values as (V1 & V3 & V8 & V0). rewrite ?V1, ?V3, ?V8, ?V0 in X. exact X.
Qed.
Lemma text_no_gap i : (S i < List.length text_b)%nat -> nth i text_b 0 <= nth (S i) text_B 0.
Proof. unfold text_b, text_B. destruct i as [|i]; simpl; intros; [lra|lia]. Qed.
Lemma text_small : 65536 * (INR (List.length text_b) * INR (List.length text_b) * sqrt (INR (List.length text_b))) * u64 <= 1 /\
  65536 * (INR (List.length text_b) * INR (List.length text_b)) * u64 <= 1.
Proof.
  change (List.length text_b) with 2%nat. simpl INR. unfold u64.
  assert (H : sqrt (1 + 1) <= 2) by (apply Rle_trans with (sqrt (2 * 2)); [apply sqrt_le_1; lra|rewrite sqrt_square; lra]).
  pose proof (sqrt_pos (1 + 1)). change (bpow radix2 (-53)) with (/ 9007199254740992). split; lra.
Qed.
