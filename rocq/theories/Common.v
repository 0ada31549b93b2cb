(** * Common: model of src/common.hh and src/common.cc. *)
From Coq Require Import ZArith List Bool String.
From Verif Require Import Base Num.
Local Open Scope string_scope.
Local Open Scope Z_scope.

Section Common.
Context {N : num}.
Notation T := (car N).

(** src/common.cc:9-19, is_monotone_increasing.  The loop over indices is a
    recursion over the elements; [prev] is the loop variable of the same name. *)
Fixpoint is_monotone_from (prev : T) (v : list T) : bool :=
  match v with
  | [] => true
  | x :: r => if n_lt x prev then false else is_monotone_from x r
  end.
Definition is_monotone_increasing (v : list T) : bool := is_monotone_from n_ninf v.

(** v.front() and v.back(); undefined on an empty vector. *)
Definition front (v : list T) : outcome T := rd v 0.
Definition back (v : list T) : outcome T := rd v (size v - 1).

(** The three messages of src/common.cc:25, 31 and 37. *)
Definition msg_length (name : string) (n len : Z) : string :=
  "Expecting " ++ show_Z n ++ " input bounds " ++ name ++ "_1,...," ++ name ++ "_"
  ++ show_Z n ++ " but got input of length " ++ show_Z len ++ ".".
Definition msg_monotone (name : string) (n : Z) : string :=
  name ++ "_1,...," ++ name ++ "_" ++ show_Z n ++ " must be monotone non-decreasing.".
Definition msg_range (name : string) (n : Z) : string :=
  name ++ "_1,...," ++ name ++ "_" ++ show_Z n ++ " must be in the interval [0,1].".

(** src/common.cc:21-40, check_boundary_vector. *)
Definition check_boundary_vector (name : string) (n : Z) (v : list T) : outcome unit :=
  if negb (size v =? n) then Throw (RuntimeError (msg_length name n (size v)))
  else if negb (is_monotone_increasing v) then Throw (RuntimeError (msg_monotone name n))
  else if 0 <? size v then
    f <- front v ;;
    if n_lt f n0 then Throw (RuntimeError (msg_range name n))
    else
      l <- back v ;;
      if n_lt n1 l then Throw (RuntimeError (msg_range name n)) else Ok tt
  else Ok tt.

(** src/common.cc:42-51, convolve_same_size (and the textually identical
    convolve_same_size_naive, src/fftwconvolver.cc:44-54).  Pointers are an array
    plus an offset.  Callers always pass a [dest] array different from both
    sources, so returning the updated [dest] loses nothing. *)
Definition convolve_same_size (sz : Z) (src0 : list T) (o0 : Z) (src1 : list T) (o1 : Z)
  (dest : list T) (od : Z) : outcome (list T) :=
  for_ 0 sz dest (fun j dest =>
    acc <- for_ 0 (j + 1) n0 (fun k acc =>
             x <- rd src0 (o0 + k) ;;
             y <- rd src1 (o1 + (j - k)) ;;
             Ok (n_add acc (n_mul x y))) ;;
    wr dest (od + j) acc).

(** src/common.hh:11-29, DoubleBuffer<double>. *)
Record dbuf : Type := mkDbuf { buf0 : list T; buf1 : list T; buf0_is_src : bool }.
Definition dbuf_make (n : Z) (value : T) : dbuf :=
  mkDbuf (vec n value) (vec n value) true.
Definition get_src (d : dbuf) : list T := if buf0_is_src d then buf0 d else buf1 d.
Definition get_dest (d : dbuf) : list T := if buf0_is_src d then buf1 d else buf0 d.
(** get_src() and get_dest() return references; storing through them: *)
Definition set_src (d : dbuf) (v : list T) : dbuf :=
  if buf0_is_src d then mkDbuf v (buf1 d) true else mkDbuf (buf0 d) v false.
Definition set_dest (d : dbuf) (v : list T) : dbuf :=
  if buf0_is_src d then mkDbuf (buf0 d) v true else mkDbuf v (buf1 d) false.
Definition flip (d : dbuf) : dbuf := mkDbuf (buf0 d) (buf1 d) (negb (buf0_is_src d)).

End Common.
Arguments dbuf N : clear implicits.
