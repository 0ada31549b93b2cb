(** * Base: the outcome monad, C++ loops and checked arrays.

    Shared vocabulary of the whole model.  Nothing here is specific to the
    repository, except that every way in which one of its C++ functions can end
    has a constructor in [outcome]. *)
From Coq Require Export ZArith List Bool String Lia.
From Coq Require DecimalString.
Export ListNotations.
Local Open Scope Z_scope.

(** The exceptions the code base can raise. *)
Inductive exn : Type :=
| RuntimeError (what : string)   (* std::runtime_error, with its what() *)
| IosFailure.                    (* std::ifstream::failure *)

(** How a call can end.
    - [Ok]: returns normally;
    - [Throw]: a C++ exception leaves the function;
    - [Abort]: an [assert] fails (SIGABRT; only in builds without -DNDEBUG);
    - [Undef]: the C++ standard gives the execution no meaning
      (out-of-range access, bad comparator for [std::sort],
       out-of-range float-to-int conversion, ...);
    - [Hang]: the fuel of a [while(true)] loop ran out.  Theorems that mention
      such loops either exclude it for every large enough fuel or prove it for
      every fuel (real non-termination). *)
Inductive outcome (A : Type) : Type :=
| Ok (a : A)
| Throw (e : exn)
| Abort (assertion : string)
| Undef (reason : string)
| Hang.
Arguments Ok {A} a.
Arguments Throw {A} e.
Arguments Abort {A} assertion.
Arguments Undef {A} reason.
Arguments Hang {A}.

Definition bind {A B} (m : outcome A) (k : A -> outcome B) : outcome B :=
  match m with
  | Ok a => k a
  | Throw e => Throw e
  | Abort s => Abort s
  | Undef s => Undef s
  | Hang => Hang
  end.

Declare Scope cpp_scope.
Delimit Scope cpp_scope with cpp.
Notation "x <- m ;; k" := (bind m (fun x => k))
  (at level 61, m at next level, right associativity) : cpp_scope.
Notation "'do' m ;; k" := (bind m (fun _ => k))
  (at level 61, m at next level, right associativity) : cpp_scope.
Open Scope cpp_scope.

(** C [assert(cond)].  [enabled = false] is a build with -DNDEBUG. *)
Definition cassert (enabled cond : bool) (text : string) : outcome unit :=
  if enabled && negb cond then Abort text else Ok tt.

(** [for (int i = lo; i < hi; ++i) body]. *)
Fixpoint loop {S} (k : nat) (i : Z) (body : Z -> S -> outcome S) (s : S) : outcome S :=
  match k with
  | O => Ok s
  | Datatypes.S k' => s' <- body i s ;; loop k' (i + 1) body s'
  end.
Definition for_ {S} (lo hi : Z) (s : S) (body : Z -> S -> outcome S) : outcome S :=
  loop (Z.to_nat (hi - lo)) lo body s.

(** [for (int i = hi; i >= lo; --i) body]. *)
Fixpoint loop_down {S} (k : nat) (i : Z) (body : Z -> S -> outcome S) (s : S) : outcome S :=
  match k with
  | O => Ok s
  | Datatypes.S k' => s' <- body i s ;; loop_down k' (i - 1) body s'
  end.
Definition for_down {S} (hi lo : Z) (s : S) (body : Z -> S -> outcome S) : outcome S :=
  loop_down (Z.to_nat (hi - lo + 1)) hi body s.

(** Iterating a C++ range: [for (x in l) body], in order. *)
Fixpoint for_each {A S} (l : list A) (s : S) (body : A -> S -> outcome S) : outcome S :=
  match l with
  | [] => Ok s
  | x :: r => s' <- body x s ;; for_each r s' body
  end.

(** Arrays and vectors are lists; an index is a C++ [int], hence a [Z].
    An access outside [0, length) is undefined behaviour. *)
Definition size {A} (l : list A) : Z := Z.of_nat (List.length l).

Definition rd {A} (l : list A) (i : Z) : outcome A :=
  if i <? 0 then Undef "read below an array"
  else match nth_error l (Z.to_nat i) with
       | Some x => Ok x
       | None => Undef "read past the end of an array"
       end.

Fixpoint upd {A} (l : list A) (i : nat) (x : A) : list A :=
  match l, i with
  | [], _ => []
  | _ :: r, O => x :: r
  | y :: r, S i' => y :: upd r i' x
  end.

Definition wr {A} (l : list A) (i : Z) (x : A) : outcome (list A) :=
  if (i <? 0) || (size l <=? i) then Undef "write outside an array"
  else Ok (upd l (Z.to_nat i) x).

(** Forming [&v[i]] of a vector: i must be a valid index (operator[] on an
    out-of-range index is undefined even if only the address is taken). *)
Definition addr {A} (l : list A) (i : Z) : outcome unit :=
  if (i <? 0) || (size l <=? i) then Undef "address of an element outside a vector"
  else Ok tt.

(** [memcpy]/[std::copy] of [len] elements from [src+so] to [dst+do_]
    (two different arrays); [len <= 0] copies nothing. *)
Definition blit {A} (src : list A) (so : Z) (dst : list A) (do_ : Z) (len : Z)
  : outcome (list A) :=
  for_ 0 len dst (fun k dst => x <- rd src (so + k) ;; wr dst (do_ + k) x).

(** [std::fill(&a[lo], &a[hi], v)] / [memset]. *)
Definition fill {A} (a : list A) (lo hi : Z) (v : A) : outcome (list A) :=
  for_ lo hi a (fun k a => wr a k v).

(** [v(n, value)]: a vector of n copies. *)
Definition vec {A} (n : Z) (x : A) : list A := repeat x (Z.to_nat n).

(** 32-bit two's complement wrap-around (the Makefile compiles with -fwrapv). *)
Definition wrap32 (z : Z) : Z := (z + 2 ^ 31) mod 2 ^ 32 - 2 ^ 31.
Definition INT_MIN : Z := - 2 ^ 31.
Definition INT_MAX : Z := 2 ^ 31 - 1.

(** Decimal rendering of an int or size_t by an ostream. *)
Definition show_Z (z : Z) : string := DecimalString.NilZero.string_of_int (Z.to_int z).
