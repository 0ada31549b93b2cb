(** * Hoare: proof rules for outcomes, loops and arrays. *)
From Coq Require Import ZArith List Bool String Lia.
From Verif Require Import Base.
Local Open Scope Z_scope.

(** [wp thr abt o Q]: o is not undefined and does not hang; if it returns, the value
    satisfies Q; if it throws, the exception satisfies thr; if an assertion fails, abt holds. *)
Definition wp {A} (thr : exn -> Prop) (abt : Prop) (o : outcome A) (Q : A -> Prop) : Prop :=
  match o with
  | Ok a => Q a
  | Throw e => thr e
  | Abort _ => abt
  | Undef _ => False
  | Hang => False
  end.

(** returns normally, with a value satisfying Q *)
Definition total {A} (o : outcome A) (Q : A -> Prop) : Prop := wp (fun _ => False) False o Q.
(** anything but undefined behaviour or non-termination *)
Definition safe {A} (o : outcome A) (Q : A -> Prop) : Prop := wp (fun _ => True) True o Q.

Lemma total_iff {A} (o : outcome A) Q : total o Q <-> exists a, o = Ok a /\ Q a.
Proof.
  unfold total, wp; split.
  - destruct o; try tauto. eauto.
  - intros (a & -> & H); exact H.
Qed.

Section Rules.
Context {thr : exn -> Prop} {abt : Prop}.
Notation WP := (wp thr abt).

Lemma wp_mono {A} (o : outcome A) (Q R : A -> Prop) :
  WP o Q -> (forall a, Q a -> R a) -> WP o R.
Proof. destruct o; simpl; auto. Qed.

Lemma wp_ok {A} (a : A) (Q : A -> Prop) : Q a -> WP (Ok a) Q.
Proof. exact (fun H => H). Qed.

Lemma wp_bind {A B} (o : outcome A) (k : A -> outcome B) (Q : B -> Prop) :
  WP o (fun a => WP (k a) Q) -> WP (bind o k) Q.
Proof. destruct o; simpl; auto. Qed.

Lemma wp_cassert en c t (Q : unit -> Prop) : (en = true -> c = false -> abt) ->
  ((en = true -> c = true) -> Q tt) -> WP (cassert en c t) Q.
Proof.
  unfold cassert; destruct en, c; simpl; intros H1 H2; auto; try (apply H2; congruence).
Qed.

Lemma wp_cassert_true en c t (Q : unit -> Prop) : c = true -> Q tt -> WP (cassert en c t) Q.
Proof. intros -> H; unfold cassert; rewrite andb_false_r; exact H. Qed.

Lemma wp_loop {S} (body : Z -> S -> outcome S) (P : Z -> S -> Prop) k : forall i s,
  P i s ->
  (forall j t, i <= j < i + Z.of_nat k -> P j t -> WP (body j t) (P (j + 1))) ->
  WP (loop k i body s) (P (i + Z.of_nat k)).
Proof.
  induction k as [|k IH]; intros i s H0 Hb; cbn [loop].
  - simpl. rewrite Z.add_0_r. exact H0.
  - apply wp_bind. eapply wp_mono. { apply Hb; [lia|exact H0]. }
    cbv beta. intros s' Hs'.
    replace (i + Z.of_nat (Datatypes.S k)) with ((i + 1) + Z.of_nat k) by lia.
    apply IH; [exact Hs'|]. intros j t Hj. apply Hb. lia.
Qed.

Lemma wp_for {S} (P : Z -> S -> Prop) lo hi s (body : Z -> S -> outcome S) (Q : S -> Prop) :
  P lo s ->
  (forall j t, lo <= j < hi -> P j t -> WP (body j t) (P (j + 1))) ->
  (forall t, P (Z.max lo hi) t -> Q t) ->
  WP (for_ lo hi s body) Q.
Proof.
  intros H0 Hb HQ. unfold for_. eapply wp_mono.
  - apply wp_loop with (P := P); [exact H0|]. intros j t Hj. apply Hb. lia.
  - cbv beta. intros t Ht. apply HQ.
    replace (Z.max lo hi) with (lo + Z.of_nat (Z.to_nat (hi - lo))) by lia. exact Ht.
Qed.

Lemma wp_loop_down {S} (body : Z -> S -> outcome S) (P : Z -> S -> Prop) k : forall i s,
  P i s ->
  (forall j t, i - Z.of_nat k < j <= i -> P j t -> WP (body j t) (P (j - 1))) ->
  WP (loop_down k i body s) (P (i - Z.of_nat k)).
Proof.
  induction k as [|k IH]; intros i s H0 Hb; cbn [loop_down].
  - simpl. rewrite Z.sub_0_r. exact H0.
  - apply wp_bind. eapply wp_mono. { apply Hb; [lia|exact H0]. }
    cbv beta. intros s' Hs'.
    replace (i - Z.of_nat (Datatypes.S k)) with ((i - 1) - Z.of_nat k) by lia.
    apply IH; [exact Hs'|]. intros j t Hj. apply Hb. lia.
Qed.

Lemma wp_for_down {S} (P : Z -> S -> Prop) hi lo s (body : Z -> S -> outcome S) (Q : S -> Prop) :
  P hi s ->
  (forall j t, lo <= j <= hi -> P j t -> WP (body j t) (P (j - 1))) ->
  (forall t, P (Z.min hi (lo - 1)) t -> Q t) ->
  WP (for_down hi lo s body) Q.
Proof.
  intros H0 Hb HQ. unfold for_down. eapply wp_mono.
  - apply wp_loop_down with (P := P); [exact H0|]. intros j t Hj. apply Hb. lia.
  - cbv beta. intros t Ht. apply HQ.
    replace (Z.min hi (lo - 1)) with (hi - Z.of_nat (Z.to_nat (hi - lo + 1))) by lia. exact Ht.
Qed.

Lemma wp_for_each {A S} (P : list A -> S -> Prop) (l : list A) s (body : A -> S -> outcome S) (Q : S -> Prop) :
  P [] s ->
  (forall pre x post t, l = pre ++ x :: post -> P pre t -> WP (body x t) (P (pre ++ [x]))) ->
  (forall t, P l t -> Q t) ->
  WP (for_each l s body) Q.
Proof.
  intros H0 Hb HQ.
  cut (forall post pre s, l = pre ++ post -> P pre s -> WP (for_each post s body) (P l)).
  { intros H. eapply wp_mono; [apply (H l []); [reflexivity|exact H0]|exact HQ]. }
  clear Q HQ s H0. induction post as [|x post IH]; intros pre s Hl Hs; cbn [for_each].
  - rewrite app_nil_r in Hl. subst. exact Hs.
  - apply wp_bind. eapply wp_mono; [eapply Hb; eassumption|].
    cbv beta. intros t Ht. apply IH with (pre := pre ++ [x]); [|exact Ht].
    rewrite <- app_assoc. exact Hl.
Qed.
End Rules.

(** ** Arrays *)
Definition get {A} (d : A) (l : list A) (i : Z) : A := nth (Z.to_nat i) l d.

Lemma size_nonneg {A} (l : list A) : 0 <= size l.
Proof. unfold size; lia. Qed.

Lemma length_upd {A} (l : list A) i x : List.length (upd l i x) = List.length l.
Proof. revert i; induction l as [|y l IH]; intros [|i]; simpl; auto. Qed.

Lemma size_upd {A} (l : list A) i x : size (upd l i x) = size l.
Proof. unfold size; rewrite length_upd; reflexivity. Qed.

Lemma nth_upd {A} (l : list A) i j x d : (i < List.length l)%nat ->
  nth j (upd l i x) d = if (i =? j)%nat then x else nth j l d.
Proof.
  revert i j; induction l as [|y l IH]; intros [|i] [|j] H; simpl in *; try lia; auto.
  apply IH; lia.
Qed.

Lemma get_upd {A} (d : A) l i j x : 0 <= i < size l -> 0 <= j ->
  get d (upd l (Z.to_nat i) x) j = if i =? j then x else get d l j.
Proof.
  unfold size, get; intros Hi Hj. rewrite nth_upd by lia.
  destruct (Nat.eqb_spec (Z.to_nat i) (Z.to_nat j)), (Z.eqb_spec i j); auto; lia.
Qed.

Lemma rd_get {A} (d : A) l i : 0 <= i < size l -> rd l i = Ok (get d l i).
Proof.
  unfold rd, get, size; intros H. destruct (Z.ltb_spec i 0); [lia|].
  rewrite (nth_error_nth' l d) by lia. reflexivity.
Qed.

Lemma wr_ok {A} (l : list A) i x : 0 <= i < size l -> wr l i x = Ok (upd l (Z.to_nat i) x).
Proof.
  unfold wr; intros H. destruct (Z.ltb_spec i 0), (Z.leb_spec (size l) i); simpl; auto; lia.
Qed.

Lemma addr_ok {A} (l : list A) i : 0 <= i < size l -> addr l i = Ok tt.
Proof.
  unfold addr; intros H. destruct (Z.ltb_spec i 0), (Z.leb_spec (size l) i); simpl; auto; lia.
Qed.

Lemma size_vec {A} n (x : A) : size (vec n x) = Z.max 0 n.
Proof. unfold size, vec; rewrite repeat_length; lia. Qed.

Lemma get_vec {A} (d : A) n x i : 0 <= i < n -> get d (vec n x) i = x.
Proof.
  unfold get, vec; intros H.
  rewrite (nth_indep _ d x) by (rewrite repeat_length; lia). apply nth_repeat.
Qed.

Lemma list_ext_get {A} (d : A) (l l' : list A) :
  size l = size l' -> (forall i, 0 <= i < size l -> get d l i = get d l' i) -> l = l'.
Proof.
  unfold size, get; intros Hs H. apply nth_ext with (d := d) (d' := d); [lia|].
  intros n Hn. specialize (H (Z.of_nat n)). rewrite Nat2Z.id in H. apply H. lia.
Qed.

Section ArrayRules.
Context {thr : exn -> Prop} {abt : Prop}.
Notation WP := (wp thr abt).

Lemma wp_rd {A} (d : A) l i (Q : A -> Prop) : 0 <= i < size l -> Q (get d l i) -> WP (rd l i) Q.
Proof. intros H HQ. rewrite (rd_get d) by exact H. exact HQ. Qed.

(** a version for safety proofs, which do not care about the value *)
Lemma wp_rd_any {A} (l : list A) i (Q : A -> Prop) :
  0 <= i < size l -> (forall x, In x l -> Q x) -> WP (rd l i) Q.
Proof.
  intros H HQ. unfold rd. destruct (Z.ltb_spec i 0); [lia|].
  destruct (nth_error l (Z.to_nat i)) eqn:E.
  - apply HQ. eapply nth_error_In; eassumption.
  - apply nth_error_None in E. unfold size in H. lia.
Qed.

Lemma wp_wr {A} (l : list A) i x (Q : list A -> Prop) : 0 <= i < size l -> Q (upd l (Z.to_nat i) x) -> WP (wr l i x) Q.
Proof. intros H HQ. rewrite wr_ok by exact H. exact HQ. Qed.

Lemma wp_addr {A} (l : list A) i (Q : unit -> Prop) : 0 <= i < size l -> Q tt -> WP (addr l i) Q.
Proof. intros H HQ. rewrite addr_ok by exact H. exact HQ. Qed.

Lemma wp_blit {A} (d : A) src so dst do_ len (Q : list A -> Prop) :
  (0 < len -> 0 <= so /\ so + len <= size src /\ 0 <= do_ /\ do_ + len <= size dst) ->
  (forall dst', size dst' = size dst ->
     (forall i, 0 <= i -> get d dst' i =
        if (do_ <=? i) && (i <? do_ + len) then get d src (so + (i - do_)) else get d dst i) ->
     Q dst') ->
  WP (blit src so dst do_ len) Q.
Proof.
  intros Hb HQ. unfold blit.
  apply wp_for with (P := fun k a => size a = size dst /\
     forall i, 0 <= i -> get d a i =
        if (do_ <=? i) && (i <? do_ + k) then get d src (so + (i - do_)) else get d dst i).
  - split; auto. intros i Hi. destruct (Z.leb_spec do_ i), (Z.ltb_spec i (do_ + 0)); simpl; auto; lia.
  - intros k a Hk [Hs Ha]. apply wp_bind. apply wp_rd with (d := d); [lia|].
    apply wp_wr; [lia|]. rewrite size_upd. split; auto. intros i Hi.
    rewrite get_upd by lia. rewrite Ha by lia.
    destruct (Z.eqb_spec (do_ + k) i), (Z.leb_spec do_ i), (Z.ltb_spec i (do_ + k)),
      (Z.ltb_spec i (do_ + (k + 1))); simpl; auto; try lia.
    f_equal; lia.
  - intros a [Hs Ha]. apply HQ; auto. intros i Hi. rewrite Ha by lia.
    destruct (Z.leb_spec do_ i), (Z.ltb_spec i (do_ + Z.max 0 len)),
      (Z.ltb_spec i (do_ + len)); simpl; auto; lia.
Qed.

Lemma wp_fill {A} (d : A) a lo hi v (Q : list A -> Prop) :
  (lo < hi -> 0 <= lo /\ hi <= size a) ->
  (forall a', size a' = size a ->
     (forall i, 0 <= i -> get d a' i = if (lo <=? i) && (i <? hi) then v else get d a i) -> Q a') ->
  WP (fill a lo hi v) Q.
Proof.
  intros Hb HQ. unfold fill.
  apply wp_for with (P := fun k a' => size a' = size a /\
     forall i, 0 <= i -> get d a' i = if (lo <=? i) && (i <? k) then v else get d a i).
  - split; auto. intros i Hi. destruct (Z.leb_spec lo i), (Z.ltb_spec i lo); simpl; auto; lia.
  - intros k a' Hk [Hs Ha]. apply wp_wr; [lia|]. rewrite size_upd. split; auto. intros i Hi.
    rewrite get_upd by lia. rewrite Ha by lia.
    destruct (Z.eqb_spec k i), (Z.leb_spec lo i), (Z.ltb_spec i k),
      (Z.ltb_spec i (k + 1)); simpl; auto; lia.
  - intros a' [Hs Ha]. apply HQ; auto. intros i Hi. rewrite Ha by lia.
    destruct (Z.leb_spec lo i), (Z.ltb_spec i (Z.max lo hi)),
      (Z.ltb_spec i hi); simpl; auto; lia.
Qed.
End ArrayRules.
