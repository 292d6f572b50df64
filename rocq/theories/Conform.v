(** * The repository's own tests, run in the model

    Not proofs of any property: each test below is transcribed (values and assertions) from the file and lines it cites and evaluated in the
    model with f32 (f64 where the test says so), to check the model against expectations that were written for the Rust code.
    A program that returns [Ok tt] is a test that passes.  Every test is run with -0.0 and with 0.0 as the start of a sum ([sz]). *)
From Coq Require Import ZArith List Bool.
From Verif Require Import Prelude Numeric Matrix Filter Extended Builder FloatNum FloatWit.
Import ListNotations SpecFloat.
Open Scope Z_scope.

(** the literal p / q, both of which the format holds exactly: a correctly rounded quotient *)
Definition ofz (prec emax : Z) (z : Z) : spec_float := binary_normalize prec emax z 0 false.
Definition lit (p q : Z) : spec_float := SFdiv 24 128 (ofz 24 128 p) (ofz 24 128 q).
Definition lit64 (p q : Z) : spec_float := SFdiv 53 1024 (ofz 53 1024 p) (ofz 53 1024 q).
Definition i_ (p : Z) : spec_float := lit p 1.
Definition zs (l : list Z) : list spec_float := map i_ l.
Definition zero := S754_zero false.
(** Rust's <, ==, and assert_float_eq's assert_f32_near! (at most 4 units in the last place apart) *)
Definition lt (a b : spec_float) : bool := SFltb a b.
Definition eqb (a b : spec_float) : bool := SFeqb a b.
Definition ulps (a : spec_float) : Z := match a with S754_finite s m e => let k := (e + 149) * 2 ^ 23 + Zpos m in if s then - k else k | _ => 0 end.
Definition is_num (a : spec_float) : bool := match a with S754_finite _ _ _ | S754_zero _ => true | _ => false end.
Definition near (a b : spec_float) : bool := is_num a && is_num b && (Z.abs (ulps a - ulps b) <=? 4).
Fixpoint nears (a b : list spec_float) : bool := match a, b with [], [] => true | x :: a', y :: b' => near x y && nears a' b' | _, _ => false end.
Fixpoint eqs (a b : list spec_float) : bool := match a, b with [], [] => true | x :: a', y :: b' => eqb x y && eqs a' b' | _, _ => false end.
Definition both (p : bool -> res unit) : Prop := p true = Ok tt /\ p false = Ok tt.

Section Tests.
Variable sz : bool.
Notation N := (f32_num sz).
Notation c := tiny.

Definition a23 := zs [1; 2; 3; 4; 5; 6].
Definition b32 := zs [10; 11; 20; 21; 30; 31].
Definition b23 := zs [10; 20; 30; 11; 21; 31].
(** matrix/traits.rs:1179-1200 *)
Definition t_mult : res unit := r <- mult c N 2 3 2 a23 b32 (zs [0; 0; 0; 0]) ;; assert_ (nears r (zs [140; 146; 320; 335])).
(** matrix/traits.rs:1202-1224 *)
Definition t_mult_buffered : res unit := r <- mult_buffered c N 2 3 2 a23 b32 (zs [0; 0; 0; 0]) (zs [0; 0; 0]) ;; assert_ (nears (fst r) (zs [140; 146; 320; 335])).
(** matrix/traits.rs:1226-1246 *)
Definition t_mult_transb : res unit := r <- mult_transb c N 2 3 2 a23 b23 (zs [0; 0; 0; 0]) ;; assert_ (nears r (zs [140; 146; 320; 335])).
(** matrix/traits.rs:1248-1282 *)
Definition t_abat : res unit :=
  let a := zs [1; 2; 3; 4; 5; 6; 7; 8; -9] in let b := zs [-4; -1; 0; 2; 3; 4; 5; 9; -10] in
  t <- mult c N 3 3 3 a b (zs [0; 0; 0; 0; 0; 0; 0; 0; 0]) ;; d <- mult_transb c N 3 3 3 t a (zs [0; 0; 0; 0; 0; 0; 0; 0; 0]) ;;
  assert_ (nears d (zs [13; 88; 559; 34; 181; 1048; 181; 184; -2009])).
(** matrix/traits.rs:1284-1306 *)
Definition t_multadd_transb : res unit := r <- multadd_transb c N 2 3 2 a23 b23 (zs [1000; 2000; 3000; 4000]) ;; assert_ (nears r (zs [1140; 2146; 3320; 4335])).
(** matrix/traits.rs:1308-1328 and 1330-1350 *)
Definition t_multscale_transb : res unit := r <- multscale_transb c N (i_ 2) 2 3 2 a23 b23 (zs [0; 0; 0; 0]) ;; assert_ (nears r (zs [280; 292; 640; 670])).
(** matrix/traits.rs:1352-1371, 1375-1394 *)
Definition t_mult_rowvector : res unit := r <- mult_rowvector c N 2 3 a23 (zs [10; 20; 30]) (zs [0; 0]) ;; assert_ (nears r (zs [140; 320])).
Definition t_multadd_rowvector : res unit := r <- multadd_rowvector c N 2 3 a23 (zs [10; 20; 30]) (zs [1000; 2000]) ;; assert_ (nears r (zs [1140; 2320])).
(** matrix/traits.rs:1396-1451 sub, sub_inplace, add_inplace *)
Definition t_sub : res unit := r <- m_sub c N 2 3 a23 b23 (zs [0; 0; 0; 0; 0; 0]) ;; assert_ (eqs r (zs [-9; -18; -27; -7; -16; -25])).
Definition t_sub_inplace : res unit := r <- sub_inplace_b c N 2 3 a23 b23 ;; assert_ (eqs r (zs [-9; -18; -27; -7; -16; -25])).
Definition t_add_inplace : res unit := r <- add_inplace_b c N 2 3 a23 b23 ;; assert_ (eqs r (zs [11; 22; 33; 15; 26; 37])).
(** matrix/traits.rs:1454-1490 *)
Definition m_half := [i_ 1; lit 1 2; zero; lit 1 2; i_ 1; zero; zero; zero; i_ 1].
Definition within (a : spec_float) (lo hi : spec_float) : bool := SFleb lo a && SFleb a hi.
Definition t_cholesky : res unit :=
  r <- cholesky_decompose_lower c N 3 3 m_half ;; let d := snd r in
  _ <- assert_ (nears (firstn 4 d) [i_ 1; zero; zero; lit 1 2]) ;; _ <- assert_ (within (nth 4 d zero) (lit 866 1000) (lit 875 1000)) ;; assert_ (nears (skipn 5 d) (zs [0; 0; 0; 1])).
(** matrix/traits.rs:1492-1552 *)
Definition t_inverse : res unit :=
  r <- cholesky_decompose_lower c N 3 3 m_half ;; d <- invert_l_cholesky c N 3 (snd r) (zs [0; 0; 0; 0; 0; 0; 0; 0; 0]) ;;
  let g i := nth i d zero in
  _ <- assert_ (is_num (g 4%nat) && SFleb (lit 13 10) (g 4%nat)) ;;
  _ <- assert_ (within (g 0%nat) (lit 132 100) (lit 134 100)) ;; _ <- assert_ (within (g 1%nat) (lit (-667) 1000) (lit (-65) 100)) ;; _ <- assert_ (near (g 2%nat) (S754_zero true)) ;;
  _ <- assert_ (within (g 3%nat) (lit (-667) 1000) (lit (-65) 100)) ;; _ <- assert_ (within (g 4%nat) (lit 130 100) (lit 135 100)) ;; _ <- assert_ (nears [g 5%nat; g 6%nat; g 7%nat] (zs [0; 0; 0])) ;;
  assert_ (within (g 8%nat) (i_ 1) (lit 100001 100000)).
(** matrix/traits.rs:1561-1643 *)
Definition t_fills : res unit :=
  let d := repeat (i_ 42) 16 in
  m1 <- set_diagonal_to_scalar c 4 zero d ;; m2 <- make_comatrix c 4 (i_ 42) (i_ 1) d ;; m3 <- make_scalar c N 4 (i_ 10) d ;; m4 <- make_identity c N 4 d ;;
  _ <- assert_ (eqs m1 (zs [0; 42; 42; 42; 42; 0; 42; 42; 42; 42; 0; 42; 42; 42; 42; 0])) ;; _ <- assert_ (eqs m2 (zs [42; 1; 1; 1; 1; 42; 1; 1; 1; 1; 42; 1; 1; 1; 1; 42])) ;;
  _ <- assert_ (eqs m3 (zs [10; 0; 0; 0; 0; 10; 0; 0; 0; 0; 10; 0; 0; 0; 0; 10])) ;; assert_ (eqs m4 (zs [1; 0; 0; 0; 0; 1; 0; 0; 0; 0; 1; 0; 0; 0; 0; 1])).

(** test_filter.rs:17-82 and tests/simple.rs:19-84 [create_test_filter], with delta_t = 1 *)
Definition create_test_filter : res (kalman spec_float * control spec_float * observation spec_float) :=
  f <- build_filter c zero 3 ;; k <- build_control c zero 3 1 ;; o <- build_observation c zero 3 2 ;;
  let dt := i_ 1 in let h := SFmul 24 128 (SFmul 24 128 (lit 1 2) dt) dt in
  a <- set_at c 3 (kf_A f) 0 0 (i_ 1) ;; a <- set_at c 3 a 0 1 dt ;; a <- set_at c 3 a 0 2 h ;;
  a <- set_at c 3 a 1 0 zero ;; a <- set_at c 3 a 1 1 (i_ 1) ;; a <- set_at c 3 a 1 2 dt ;;
  a <- set_at c 3 a 2 0 zero ;; a <- set_at c 3 a 2 1 zero ;; a <- set_at c 3 a 2 2 (i_ 1) ;;
  p <- make_scalar c N 3 (lit 1 10) (kf_P f) ;;
  b <- set_at c 1 (ct_B k) 0 0 h ;; b <- set_at c 1 b 1 0 dt ;; b <- set_at c 1 b 2 0 (i_ 1) ;;
  q <- make_comatrix c 1 (i_ 1) (lit 1 10) (ct_Q k) ;;
  let hm := set_all (ob_H o) (lit 1 3) in
  hm <- set_at c 3 hm 0 0 (i_ 1) ;; hm <- set_at c 3 hm 0 1 zero ;; hm <- set_at c 3 hm 0 2 zero ;;
  r <- make_identity c N 2 (ob_R o) ;;
  Ok (mk_kalman a (set_zero N (kf_x f)) p (kf_Q f) (kf_px f) (kf_tP f), mk_ctl b (set_zero N (ct_u k)) q (ct_BQ k),
      mk_obs hm (ob_z o) r (ob_y o) (ob_S o) (ob_K o) (ob_Sinv o) (ob_HP o) (ob_PHt o) (ob_KHP o)).
Definition put_z (o : observation spec_float) z := mk_obs (ob_H o) z (ob_R o) (ob_y o) (ob_S o) (ob_K o) (ob_Sinv o) (ob_HP o) (ob_PHt o) (ob_KHP o).
Definition diag3 (p : list spec_float) : list spec_float := [nth 0 p zero; nth 4 p zero; nth 8 p zero].
Fixpoint lts (a b : list spec_float) : bool := match a, b with [], [] => true | x :: a', y :: b' => lt x y && lts a' b' | _, _ => false end.
(** tests/simple.rs:87-198; kalman/regular.rs, it_works *)
Definition t_simple : res unit :=
  s <- create_test_filter ;; let '(f, k, o) := s in
  _ <- assert_ (eqs (diag3 (kf_P f)) [lit 1 10; lit 1 10; lit 1 10]) ;;
  f <- for_range 0 10 f (fun _ f => predict c N 3 f) ;;
  _ <- assert_ (eqs (kf_x f) (zs [0; 0; 0])) ;; _ <- assert_ (nears (diag3 (kf_P f)) [lit 2601 10; lit 101 10; lit 1 10]) ;;
  z <- set_at c 1 (ob_z o) 0 0 zero ;; r <- correct c N 3 2 (put_z o z) f ;; let '(o, f) := r in
  _ <- assert_ (eqs (kf_x f) (zs [0; 0; 0])) ;; _ <- assert_ (lts (diag3 (kf_P f)) [i_ 1; lit 2 10; lit 1 100]) ;;
  u <- set_at c 1 (ct_u k) 0 0 (i_ 1) ;;
  f <- predict c N 3 f ;; r <- control_ c N 3 1 (mk_ctl (ct_B k) u (ct_Q k) (ct_BQ k)) f ;; let '(k, f) := r in
  _ <- assert_ (eqs (kf_x f) [lit 1 2; i_ 1; i_ 1]) ;;
  f <- predict c N 3 f ;;
  _ <- assert_ (eqs (kf_x f) (zs [2; 2; 1])) ;; _ <- assert_ (lts [lit 62 10; lit 42 10; i_ 1] (diag3 (kf_P f))) ;;
  z <- set_at c 1 (ob_z o) 0 0 (i_ 2) ;; z <- set_at c 1 z 1 0 (lit 5 3) ;; r <- correct c N 3 2 (put_z o z) f ;; let '(o, f) := r in
  assert_ (lts (diag3 (kf_P f)) [i_ 1; i_ 1; lit 4 10]).

(** examples/car_1d.rs:18-142, the whole of [main] without the printing *)
Definition car_obs : list spec_float := [lit 132 10; lit 165 10; i_ 20; lit 235 10; lit 268 10; lit 297 10; lit 328 10; lit 343 10; lit 356 10; i_ 36].
Definition t_car_1d : res unit :=
  f <- build_filter c zero 3 ;; k <- build_control c zero 3 1 ;; o <- build_observation c zero 3 1 ;;
  let dt := i_ 1 in let h := SFmul 24 128 (SFmul 24 128 (lit 1 2) dt) dt in
  x <- index_set (kf_x f) 0 (i_ (-5)) ;; x <- index_set x 1 zero ;; x <- index_set x 2 (lit 3 10) ;;
  a <- set_at c 3 (kf_A f) 0 0 (i_ 1) ;; a <- set_at c 3 a 0 1 dt ;; a <- set_at c 3 a 0 2 h ;;
  a <- set_at c 3 a 1 0 zero ;; a <- set_at c 3 a 1 1 (i_ 1) ;; a <- set_at c 3 a 1 2 dt ;;
  a <- set_at c 3 a 2 0 zero ;; a <- set_at c 3 a 2 1 zero ;; a <- set_at c 3 a 2 2 (i_ 1) ;;
  p <- make_identity c N 3 (kf_P f) ;;
  b <- set_at c 1 (ct_B k) 0 0 zero ;; b <- set_at c 1 b 1 0 zero ;; b <- set_at c 1 b 2 0 dt ;;
  q <- make_identity c N 1 (ct_Q k) ;;
  hm <- set_at c 3 (ob_H o) 0 0 (i_ 1) ;;
  r <- make_scalar c N 1 (lit 1 10) (ob_R o) ;; r <- set_at c 1 r 0 0 (i_ 1) ;;
  let f := mk_kalman a x p (kf_Q f) (kf_px f) (kf_tP f) in
  let k := mk_ctl b (set_zero N (ct_u k)) q (ct_BQ k) in
  let o := mk_obs hm (ob_z o) r (ob_y o) (ob_S o) (ob_K o) (ob_Sinv o) (ob_HP o) (ob_PHt o) (ob_KHP o) in
  f <- for_range 0 10 f (fun _ f => predict c N 3 f) ;;
  _ <- assert_ (nears (kf_x f) [i_ 10; i_ 3; lit 3 10]) ;;
  s <- for_range 10 20 (f, k, o) (fun t s => let '(f, k, o) := s in
    u <- set_at c 1 (ct_u k) 0 0 (lit (-1333333) 10000000) ;;
    f <- predict c N 3 f ;; r <- control_ c N 3 1 (mk_ctl (ct_B k) u (ct_Q k) (ct_BQ k)) f ;; let '(k, f) := r in
    if Nat.eqb (Nat.modulo t 2) 0 then
      v <- rd car_obs (t - 10) ;; z <- index_set (ob_z o) 0 v ;; r <- correct c N 3 1 (put_z o z) f ;; let '(o, f) := r in Ok (f, k, o)
    else Ok (f, k, o)) ;;
  let '(f, _, _) := s in let g i := nth i (kf_x f) zero in
  _ <- assert_ (within (g 0%nat) (i_ 35) (lit 363 10)) ;; _ <- assert_ (within (g 1%nat) (lit (-6) 10) zero) ;; assert_ (within (g 2%nat) (lit (-13) 10) (lit (-103) 100)).
End Tests.

(** tests/gravity.rs:18-33 and tests/gravity_q_tuned.rs:19-34; [L] makes a literal *)
Definition test_distance (L : Z -> Z -> spec_float) : list spec_float :=
  [L 0 1; L 4905 1000; L 1962 100; L 44145 1000; L 7848 100; L 12263 100; L 17658 100; L 24035 100; L 31392 100; L 39731 100; L 4905 10; L 59351 100; L 70632 100; L 82894 100; L 96138 100].
Definition test_error (L : Z -> Z -> spec_float) : list spec_float :=
  [L 13442 100000; L 45847 100000; L (-56471) 100000; L 21554 100000; L 79691 1000000; L (-32692) 100000; L (-1084) 10000; L 85656 1000000; L 8946 10000; L 69236 100000;
   L (-33747) 100000; L 75873 100000; L 18135 100000; L (-15764) 1000000; L 17869 100000].
Definition kf_test (L : Z -> Z -> spec_float) : kalman spec_float :=
  let i z := L z 1 in mk_kalman [i 1; i 1; L 1 2; i 0; i 1; i 1; i 0; i 0; i 1] [i 0; i 0; i 6] [L 1 10; i 0; i 0; i 0; i 1; i 0; i 0; i 0; i 1] (repeat (i 0) 9) (repeat (i 0) 3) (repeat (i 0) 9).
Definition ob_test (L : Z -> Z -> spec_float) : observation spec_float :=
  let i z := L z 1 in mk_obs [i 1; i 0; i 0] [i 0] [L 1 2] [i 0] [i 0] (repeat (i 0) 3) [i 0] (repeat (i 0) 3) (repeat (i 0) 3) (repeat (i 0) 9).
Definition t_gravity_loop (NN : num spec_float) (L : Z -> Z -> spec_float) (pred : kalman spec_float -> res (kalman spec_float)) : res unit :=
  s <- for_range 0 15 (kf_test L, ob_test L) (fun t s => let '(f, o) := s in
    f <- pred f ;; d <- rd (test_distance L) t ;; e <- rd (test_error L) t ;; m <- n_add NN d e ;;
    z <- index_set (ob_z o) 0 m ;; r <- correct tiny NN 3 1 (put_z o z) f ;; let '(o, f) := r in Ok (f, o)) ;;
  g <- index_get (kf_x (fst s)) 2 ;; assert_ (lt (L 9 1) g && lt g (L 10 1)).
(** tests/gravity.rs:39-112 *)
Definition t_gravity (sz : bool) : res unit := t_gravity_loop (f32_num sz) lit (predict tiny (f32_num sz) 3).
(** tests/gravity_q_tuned.rs:40-115: f64, predict_tuned(0.5) *)
Definition t_gravity_tuned (sz : bool) : res unit := t_gravity_loop (f64_num sz) lit64 (predict_tuned tiny (f64_num sz) 3 (lit64 1 2)).

Example mult_passes : both t_mult. Proof. vm_compute. auto. Qed.
Example mult_buffered_passes : both t_mult_buffered. Proof. vm_compute. auto. Qed.
Example mult_transb_passes : both t_mult_transb. Proof. vm_compute. auto. Qed.
Example abat_passes : both t_abat. Proof. vm_compute. auto. Qed.
Example multadd_transb_passes : both t_multadd_transb. Proof. vm_compute. auto. Qed.
Example multscale_transb_passes : both t_multscale_transb. Proof. vm_compute. auto. Qed.
Example mult_rowvector_passes : both t_mult_rowvector. Proof. vm_compute. auto. Qed.
Example multadd_rowvector_passes : both t_multadd_rowvector. Proof. vm_compute. auto. Qed.
Example sub_passes : both t_sub. Proof. vm_compute. auto. Qed.
Example sub_inplace_passes : both t_sub_inplace. Proof. vm_compute. auto. Qed.
Example add_inplace_passes : both t_add_inplace. Proof. vm_compute. auto. Qed.
Example cholesky_passes : both t_cholesky. Proof. vm_compute. auto. Qed.
Example inverse_passes : both t_inverse. Proof. vm_compute. auto. Qed.
Example fills_pass : both t_fills. Proof. vm_compute. auto. Qed.
Example simple_passes : both t_simple. Proof. vm_compute. auto. Qed.
Example car_1d_passes : both t_car_1d. Proof. vm_compute. auto. Qed.
Example gravity_passes : both t_gravity. Proof. vm_compute. auto. Qed.
Example gravity_tuned_passes : both t_gravity_tuned. Proof. vm_compute. auto. Qed.
