(** * FFTConv: model of src/fftwconvolver.hh and src/fftwconvolver.cc. *)
From Coq Require Import ZArith List Bool String.
From Verif Require Import Base Num Common PoissonPmf.
Local Open Scope string_scope.
Local Open Scope Z_scope.

(** src/fftwconvolver.cc:18-19. *)
Definition ROUNDING : Z := 2048.
Definition MINIMUM_SIZE_FOR_FFTW_CONVOLUTION : Z := 128.

(** src/fftwconvolver.cc:22-26.  C++ division truncates toward zero.
    The assertion rounding >= 0 is about the constant 2048 and is omitted.
    Overflow of int (2*size for size >= 2^30) is not modelled. *)
Definition round_up (n rounding : Z) : Z := Z.quot (n + rounding - 1) rounding * rounding.

Section FFTConv.
Context {N : num} (E : env N).
Notation T := (car N).
Definition cplx : Type := (T * T)%type.

(** src/aligned_mem.hh:15-18. *)
Definition alloc_complexes (site : nat) (n : Z) : list cplx :=
  map (fun i => (junk E site (2 * i), junk E site (2 * i + 1))) (seq 0 (Z.to_nat n)).

(** src/fftwconvolver.hh:8-31, class FFTWConvolver.  A plan is represented by the
    transform size it was created for ([None] is NULL). *)
Record fftconv : Type := mkFftconv {
  maximum_input_size : Z;
  r2c_in : list T;
  r2c_out : list cplx;
  c2r_in : list cplx;
  c2r_out : list T;
  tmp_complex : list cplx;
  r2c_plans : list (option Z);
  c2r_plans : list (option Z)
}.

(** src/fftwconvolver.cc:28-42, the constructor.  Inside it the name
    maximum_input_size denotes the parameter, except that the *member* of that
    name is initialised to maximum_input_size+ROUNDING-1 (line 29). *)
Definition fftconv_make (max_in : Z) : fftconv :=
  let nplans := Z.quot (round_up (2 * max_in) ROUNDING) ROUNDING in
  let padded := round_up (2 * max_in) ROUNDING in
  mkFftconv (max_in + ROUNDING - 1)
    (alloc_doubles E 2 padded)
    (alloc_complexes 3 padded)
    (alloc_complexes 4 padded)
    (alloc_doubles E 5 padded)
    (alloc_complexes 6 padded)
    (vec nplans None)
    (vec nplans None).

(** src/fftwconvolver.cc:68-96, memoized_r2c_plan / memoized_c2r_plan: the same
    code on the two plan tables.  Returns the table and the plan. *)
Definition memoized_plan (plans : list (option Z)) (rounded_size : Z)
  : outcome (list (option Z) * Z) :=
  do cassert (asserts E) (0 <? rounded_size) "memoized_plan: rounded_size > 0" ;;
  do cassert (asserts E) (Z.rem rounded_size ROUNDING =? 0) "memoized_plan: rounded_size % ROUNDING == 0" ;;
  let index := Z.quot rounded_size ROUNDING - 1 in
  do cassert (asserts E) (index <? size plans) "memoized_plan: index < plans.size()" ;;
  p <- rd plans index ;;
  match p with
  | Some sz => Ok (plans, sz)
  | None => plans <- wr plans index (Some rounded_size) ;; Ok (plans, rounded_size)
  end.

(** src/fftwconvolver.cc:98-103, copy_zero_padded<double>. *)
Definition copy_zero_padded (src : list T) (so : Z) (dest : list T) (src_size dest_size : Z)
  : outcome (list T) :=
  dest <- blit src so dest 0 src_size ;;
  fill dest src_size dest_size n0.

(** std::complex<double> multiplication under -ffast-math, and double * complex. *)
Definition cmul (x y : cplx) : cplx :=
  (n_sub (n_mul (fst x) (fst y)) (n_mul (snd x) (snd y)),
   n_add (n_mul (fst x) (snd y)) (n_mul (snd x) (fst y))).
Definition cscale (c : T) (x : cplx) : cplx := (n_mul c (fst x), n_mul c (snd x)).

(** src/fftwconvolver.cc:56-66, elementwise_complex_product. *)
Definition elementwise_complex_product (sz : Z) (src0 src1 dest : list cplx) (c : T)
  : outcome (list cplx) :=
  for_ 0 sz dest (fun i dest =>
    x <- rd src0 i ;; y <- rd src1 i ;; wr dest i (cmul (cscale c x) y)).

(** Executing a real-to-complex plan of [len] points on [inp], result to [outp]:
    FFTW reads len doubles and writes len/2+1 complexes; because the plans are
    created with FFTW_DESTROY_INPUT the input is left with unspecified contents
    (modelled by [junk] at the given site). *)
Definition execute_r2c (site : nat) (len : Z) (inp : list T) (outp : list cplx)
  : outcome (list T * list cplx) :=
  if size inp <? len then Undef "fftw r2c: input array too short"
  else
    outp <- blit (fft_r2c E (firstn (Z.to_nat len) inp)) 0 outp 0 (Z.quot len 2 + 1) ;;
    Ok (alloc_doubles E site (size inp), outp).
Definition execute_c2r (site : nat) (len : Z) (inp : list cplx) (outp : list T)
  : outcome (list cplx * list T) :=
  if size inp <? Z.quot len 2 + 1 then Undef "fftw c2r: input array too short"
  else
    outp <- blit (fft_c2r E (Z.to_nat len) (firstn (Z.to_nat (Z.quot len 2 + 1)) inp)) 0 outp 0 len ;;
    Ok (alloc_complexes site (size inp), outp).

Definition msg_too_big (sz mx : Z) : string :=
  "FFTWConvolver::convolve_same_size received input of size " ++ show_Z sz
  ++ ". This is bigger than maximum_input_size==" ++ show_Z mx.

(** src/fftwconvolver.cc:105-144, FFTWConvolver::convolve_same_size. *)
Definition fft_convolve_same_size (f : fftconv) (sz : Z) (a : list T) (oa : Z)
  (b : list T) (ob : Z) (output : list T) (oo : Z) : outcome (fftconv * list T) :=
  if maximum_input_size f <? sz then
    Throw (RuntimeError (msg_too_big sz (maximum_input_size f)))
  else if sz <=? 0 then Ok (f, output)
  else if sz <? MINIMUM_SIZE_FOR_FFTW_CONVOLUTION then
    output <- convolve_same_size sz a oa b ob output oo ;; Ok (f, output)
  else
    let padded_size := round_up (2 * sz) ROUNDING in
    (* lines 128-131: tmp_complex <- FFT(zeropad(input_a)) *)
    inp <- copy_zero_padded a oa (r2c_in f) sz padded_size ;;
    pl <- memoized_plan (r2c_plans f) padded_size ;;
    rc <- execute_r2c 7 (snd pl) inp (tmp_complex f) ;;
    let inp := fst rc in
    let tmpc := snd rc in
    let plans_r := fst pl in
    (* lines 136-137: r2c_out <- FFT(zeropad(input_b)) *)
    inp <- copy_zero_padded b ob inp sz padded_size ;;
    pl <- memoized_plan plans_r padded_size ;;
    rc <- execute_r2c 8 (snd pl) inp (r2c_out f) ;;
    let inp := fst rc in
    let outc := snd rc in
    let plans_r := fst pl in
    (* lines 141-143 *)
    cin <- elementwise_complex_product (Z.quot padded_size 2 + 1) tmpc outc (c2r_in f)
             (n_div n1 (n_of_Z padded_size)) ;;
    plc <- memoized_plan (c2r_plans f) padded_size ;;
    cr <- execute_c2r 9 (snd plc) cin (c2r_out f) ;;
    output <- blit (snd cr) 0 output oo sz ;;
    Ok (mkFftconv (maximum_input_size f) inp outc (fst cr) (snd cr) tmpc plans_r (fst plc), output).

End FFTConv.
Arguments fftconv N : clear implicits.
Arguments cplx N : clear implicits.
