(** * TestSpec: the repository's test suite, tests/test_crossprob.py, as data.

    Uses no definition of the model. *)
From Coq Require Import ZArith Reals List Ascii String.
From Verif Require Import StringSpec McSpec McProbSpec.
Import List. Import ListNotations.
Local Open Scope R_scope.
Local Open Scope string_scope.

(** A file of the directory tests: its name, its two lines, and the numbers they hold. *)
Record test_file := mkTest { name : string; line1 : string; line2 : string; lower : list R; upper : list R }.
Definition text (t : test_file) : string := line1 t ++ String newline (line2 t ++ String newline "").

Definition over (M : Z) (z : Z) : R := IZR z / IZR M.

(** tests/bounds_0_1.txt:1-2 *)
Definition bounds_0_1 := mkTest "tests/bounds_0_1.txt" "0, 0, 0" "1, 1, 1" [0; 0; 0] [1; 1; 1].
(** tests/bounds_0.txt:1-2 *)
Definition bounds_0 := mkTest "tests/bounds_0.txt" "0, 0, 0," "" [0; 0; 0] [].
(** tests/bounds__1.txt:1-2 *)
Definition bounds__1 := mkTest "tests/bounds__1.txt" "" "1, 1, 1" [] [1; 1; 1].
(** tests/bounds2.txt:1-2 *)
Definition bounds2 := mkTest "tests/bounds2.txt" "0.0, 0.0" "0.5, 1.0" [0; 0] [5/10; 1].
(** tests/bounds8.txt:1-2 *)
Definition bounds8 := mkTest "tests/bounds8.txt" "0.0, 0.0, 0.1, 0.2, 0.3, 0.4, 0.5, 0.6" "0.5, 0.6, 0.7, 0.8, 0.9, 1.0, 1.0, 1.0"
  [0; 0; 1/10; 2/10; 3/10; 4/10; 5/10; 6/10] [5/10; 6/10; 7/10; 8/10; 9/10; 1; 1; 1].
(** tests/bounds_cksplus_10.txt:1-2, in units of 10^-13 *)
Definition bounds_cksplus_10 := mkTest "tests/bounds_cksplus_10.txt"
  "0.0104807417938, 0.0545286199977, 0.11582527803, 0.187562296647, 0.267318098687, 0.354215928873, 0.448269167616, 0.550396111326, 0.663152276693, 0.794328234724" ""
  (map (over 10000000000000) [104807417938; 545286199977; 1158252780300; 1875622966470; 2673180986870; 3542159288730; 4482691676160; 5503961113260; 6631522766930; 7943282347240]%Z)
  [].
(** tests/bounds_cksminus_10.txt:1-2, in units of 10^-12 *)
Definition bounds_cksminus_10 := mkTest "tests/bounds_cksminus_10.txt" ""
  "0.205671765276, 0.336847723307, 0.449603888674, 0.551730832384, 0.645784071127, 0.732681901313, 0.812437703353, 0.88417472197, 0.945471380002, 0.989519258206"
  []
  (map (over 1000000000000) [205671765276; 336847723307; 449603888674; 551730832384; 645784071127; 732681901313; 812437703353; 884174721970; 945471380002; 989519258206]%Z).
Definition test_files := [bounds_0_1; bounds_0; bounds__1; bounds2; bounds8; bounds_cksplus_10; bounds_cksminus_10].

(** The boundaries a file describes; a missing line means 0 everywhere or 1 everywhere
    (src/crossprob.cc:50-51, usage text). *)
Definition lower_of (t : test_file) : list R := if lower t then repeat 0 (List.length (upper t)) else lower t.
Definition upper_of (t : test_file) : list R := if upper t then repeat 1 (List.length (lower t)) else upper t.

(** tests/test_crossprob.py:15-44: a command, a file and the exact text expected. *)
Definition suite : list (string * test_file * string) :=
  [("ecdf2-ks2001", bounds_0_1, "1"); ("ecdf2-ks2001", bounds2, "0.75"); ("ecdf2-ks2001", bounds8, "0.840529");
   ("ecdf2-ks2001", bounds_cksplus_10, "0.608924"); ("ecdf2-ks2001", bounds_cksminus_10, "0.608924");
   ("ecdf1-mns2016", bounds_0, "1"); ("ecdf1-mns2016", bounds__1, "1");
   ("ecdf1-mns2016", bounds_cksminus_10, "0.608924"); ("ecdf1-mns2016", bounds_cksplus_10, "0.608924");
   ("ecdf2-mn2017", bounds_0_1, "1"); ("ecdf2-mn2017", bounds2, "0.75"); ("ecdf2-mn2017", bounds8, "0.840529");
   ("ecdf2-mn2017", bounds_cksminus_10, "0.608924"); ("ecdf2-mn2017", bounds_cksplus_10, "0.608924");
   ("ecdf1-new", bounds_0, "1"); ("ecdf1-new", bounds__1, "1");
   ("ecdf1-new", bounds_cksminus_10, "0.608924"); ("ecdf1-new", bounds_cksplus_10, "0.608924")].

(** tests/test_crossprob.py:52-62: files simulated 1000000 times, and the number expected up to [EPSILON]. *)
Definition mc_suite : list (test_file * R) :=
  [(bounds2, 75/100); (bounds8, 840529/1000000); (bounds_cksplus_10, 608924/1000000); (bounds_cksminus_10, 608924/1000000)].
(** tests/test_crossprob.py:47-50: files simulated 1000 times, whose result must be exactly 1. *)
Definition mc_ones : list test_file := [bounds_0; bounds__1].
(** tests/test_crossprob.py:7 *)
Definition EPSILON : R := 1/100.

(** The sample size of a file: the length of its longer line. *)
Definition sample_size (t : test_file) : nat := Nat.max (List.length (lower t)) (List.length (upper t)).
(** With the random numbers [us], the frequency of simulations that stay inside is more than 99/10000 away
    from [v]. *)
Definition far_off (num : nat) (t : test_file) (v : R) (us : list R) : Prop :=
  exists cs, List.length cs = num /\ outcomes (S (sample_size t)) (ecdf_inside (lower t) (upper t)) cs us /\
    99/10000 < Rabs (1 - IZR (crossings cs) / INR num - v).
