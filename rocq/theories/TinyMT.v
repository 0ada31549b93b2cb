(** * TinyMT: model of src/tinymt64.h and src/tinymt64.cc.

    uint64_t values are integers in [0, 2^64); every arithmetic result is reduced
    explicitly. *)
From Coq Require Import ZArith List Bool.
From Verif Require Import Base Num.
Local Open Scope Z_scope.

Definition u64 (z : Z) : Z := z mod 2 ^ 64.

(** src/tinymt64.h:46-51. *)
Definition TINYMT64_SH0 : Z := 12.
Definition TINYMT64_SH1 : Z := 11.
Definition TINYMT64_SH8 : Z := 8.
Definition TINYMT64_MASK : Z := 0x7fffffffffffffff.

(** src/tinymt64.h:60-65, struct TINYMT64_T. *)
Record tinymt : Type := mkTinymt {
  status0 : Z; status1 : Z;       (* uint64_t status[2] *)
  mat1 : Z; mat2 : Z;             (* uint32_t *)
  tmat : Z                        (* uint64_t *)
}.

(** -((int64_t)(x & 1)) & m, as a uint64_t: m if x is odd, else 0. *)
Definition mask_if_odd (x m : Z) : Z := if Z.odd x then m else 0.

(** src/tinymt64.h:94-107, tinymt64_next_state. *)
Definition tinymt64_next_state (r : tinymt) : tinymt :=
  let s0 := Z.land (status0 r) TINYMT64_MASK in
  let x := Z.lxor s0 (status1 r) in
  let x := Z.lxor x (u64 (Z.shiftl x TINYMT64_SH0)) in
  let x := Z.lxor x (Z.shiftr x 32) in
  let x := Z.lxor x (u64 (Z.shiftl x 32)) in
  let x := Z.lxor x (u64 (Z.shiftl x TINYMT64_SH1)) in
  mkTinymt (Z.lxor (status1 r) (mask_if_odd x (mat1 r)))
           (Z.lxor x (mask_if_odd x (u64 (Z.shiftl (mat2 r) 32))))
           (mat1 r) (mat2 r) (tmat r).

(** src/tinymt64.h:115-125, tinymt64_temper (LINEARITY_CHECK is not defined). *)
Definition tinymt64_temper (r : tinymt) : Z :=
  let x := u64 (status0 r + status1 r) in
  let x := Z.lxor x (Z.shiftr (status0 r) TINYMT64_SH8) in
  Z.lxor x (mask_if_odd x (tmat r)).

(** The bit patterns built in src/tinymt64.h:133-148 and 156-171. *)
Definition temper_conv_bits (r : tinymt) : Z :=
  let x := u64 (status0 r + status1 r) in
  let x := Z.lxor x (Z.shiftr (status0 r) TINYMT64_SH8) in
  Z.lor (Z.shiftr (Z.lxor x (mask_if_odd x (tmat r))) 12) 0x3ff0000000000000.
Definition temper_conv_open_bits (r : tinymt) : Z :=
  let x := u64 (status0 r + status1 r) in
  let x := Z.lxor x (Z.shiftr (status0 r) TINYMT64_SH8) in
  Z.lor (Z.shiftr (Z.lxor x (mask_if_odd x (tmat r))) 12) 0x3ff0000000000001.

Section Doubles.
Context {N : num}.
Notation T := (car N).

(** src/tinymt64.h:133-148, tinymt64_temper_conv. *)
Definition tinymt64_temper_conv (r : tinymt) : T := n_of_bits (temper_conv_bits r).
(** src/tinymt64.h:156-171, tinymt64_temper_conv_open. *)
Definition tinymt64_temper_conv_open (r : tinymt) : T := n_of_bits (temper_conv_open_bits r).

(** src/tinymt64.h:178-181, tinymt64_generate_uint64. *)
Definition tinymt64_generate_uint64 (r : tinymt) : Z * tinymt :=
  let r := tinymt64_next_state r in (tinymt64_temper r, r).
(** src/tinymt64.h:189-192, tinymt64_generate_double (not called by the programs);
    TINYMT64_MUL (src/tinymt64.h:51) is 1.0 / 18446744073709551616.0. *)
Definition TINYMT64_MUL : T := n_div n1 (n_of_Z (2 ^ 64)).
Definition tinymt64_generate_double (r : tinymt) : T * tinymt :=
  let r := tinymt64_next_state r in (n_mul (n_of_Z (tinymt64_temper r)) TINYMT64_MUL, r).
(** src/tinymt64.h:200-203, tinymt64_generate_double01. *)
Definition tinymt64_generate_double01 (r : tinymt) : T * tinymt :=
  let r := tinymt64_next_state r in (n_sub (tinymt64_temper_conv r) n1, r).
(** src/tinymt64.h:211-214, tinymt64_generate_double12. *)
Definition tinymt64_generate_double12 (r : tinymt) : T * tinymt :=
  let r := tinymt64_next_state r in (tinymt64_temper_conv r, r).
(** src/tinymt64.h:222-225, tinymt64_generate_doubleOC. *)
Definition tinymt64_generate_doubleOC (r : tinymt) : T * tinymt :=
  let r := tinymt64_next_state r in (n_sub (n_of_Z 2) (tinymt64_temper_conv r), r).
(** src/tinymt64.h:233-236, tinymt64_generate_doubleOO. *)
Definition tinymt64_generate_doubleOO (r : tinymt) : T * tinymt :=
  let r := tinymt64_next_state r in (n_sub (tinymt64_temper_conv_open r) n1, r).
End Doubles.

(** src/tinymt64.cc:69-75, period_certification; 'T' = 84, 'M' = 77. *)
Definition period_certification (r : tinymt) : tinymt :=
  if (Z.land (status0 r) TINYMT64_MASK =? 0) && (status1 r =? 0)
  then mkTinymt 84 77 (mat1 r) (mat2 r) (tmat r) else r.

Definition get_status (r : tinymt) (odd_ : bool) : Z := if odd_ then status1 r else status0 r.
Definition set_status (r : tinymt) (odd_ : bool) (v : Z) : tinymt :=
  if odd_ then mkTinymt (status0 r) v (mat1 r) (mat2 r) (tmat r)
  else mkTinymt v (status1 r) (mat1 r) (mat2 r) (tmat r).

(** src/tinymt64.cc:86-90, the loop body: status[i & 1] ^= i + C * (p ^ (p >> 62)). *)
Definition init_round (i : Z) (r : tinymt) : tinymt :=
  let p := get_status r (Z.odd (i - 1)) in
  let v := u64 (i + 6364136223846793005 * Z.lxor p (Z.shiftr p 62)) in
  set_status r (Z.odd i) (Z.lxor (get_status r (Z.odd i)) v).

(** src/tinymt64.cc:83-92, tinymt64_init.  mat1, mat2 and tmat are *read* here;
    the caller in src/crossprob_mc.cc:18-21 never assigned them. *)
Definition tinymt64_init (r : tinymt) (seed : Z) : tinymt :=
  let r := mkTinymt (Z.lxor seed (u64 (Z.shiftl (mat1 r) 32)))
                    (Z.lxor (mat2 r) (tmat r)) (mat1 r) (mat2 r) (tmat r) in
  let r := fold_left (fun r i => init_round i r) [1; 2; 3; 4; 5; 6; 7] r in
  period_certification r.

(** src/tinymt64.cc:51-63, ini_func1 and ini_func2. *)
Definition ini_func1 (x : Z) : Z := u64 (Z.lxor x (Z.shiftr x 59) * 2173292883993).
Definition ini_func2 (x : Z) : Z := u64 (Z.lxor x (Z.shiftr x 59) * 58885565329898161).

(** src/tinymt64.cc:101-154, tinymt64_init_by_array (not called by the programs).
    st is a 4-element array; int key_length is the length of init_key. *)
Definition ia_get (st : list Z) (i : Z) : Z := nth (Z.to_nat (i mod 4)) st 0.
Definition ia_set (st : list Z) (i v : Z) : list Z := upd st (Z.to_nat (i mod 4)) v.
Definition ia_mix (k : Z) (si : list Z * Z) : list Z * Z :=
  let '(st, i) := si in
  let r := ini_func1 (Z.lxor (Z.lxor (ia_get st i) (ia_get st (i + 1))) (ia_get st (i + 3))) in
  let st := ia_set st (i + 1) (u64 (ia_get st (i + 1) + r)) in
  let r := u64 (r + k + i) in
  let st := ia_set st (i + 2) (u64 (ia_get st (i + 2) + r)) in
  (ia_set st i r, (i + 1) mod 4).
Definition ia_final (si : list Z * Z) : list Z * Z :=
  let '(st, i) := si in
  let r := ini_func2 (u64 (ia_get st i + ia_get st (i + 1) + ia_get st (i + 3))) in
  let st := ia_set st (i + 1) (Z.lxor (ia_get st (i + 1)) r) in
  let r := u64 (r - i) in
  let st := ia_set st (i + 2) (Z.lxor (ia_get st (i + 2)) r) in
  (ia_set st i r, (i + 1) mod 4).
Definition tinymt64_init_by_array (rnd : tinymt) (init_key : list Z) : tinymt :=
  let key_length := size init_key in
  let st := [0; mat1 rnd; mat2 rnd; tmat rnd] in
  let count := if 8 <? key_length + 1 then key_length + 1 else 8 in
  let r := ini_func1 (Z.lxor (Z.lxor (ia_get st 0) (ia_get st 1)) (ia_get st 3)) in
  let st := ia_set st 1 (u64 (ia_get st 1 + r)) in
  let r := u64 (r + key_length) in
  let st := ia_set st 2 (u64 (ia_get st 2 + r)) in
  let st := ia_set st 0 r in
  let count := count - 1 in
  let keys := firstn (Z.to_nat count) init_key in
  let si := fold_left (fun si k => ia_mix k si) keys (st, 1) in
  let si := Nat.iter (Z.to_nat (count - size keys)) (ia_mix 0) si in
  let si := Nat.iter 4 ia_final si in
  let st := fst si in
  period_certification
    (mkTinymt (Z.lxor (ia_get st 0) (ia_get st 1)) (Z.lxor (ia_get st 2) (ia_get st 3))
       (mat1 rnd) (mat2 rnd) (tmat rnd)).
