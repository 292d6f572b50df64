(** * Certificates of examples/gravity.rs *)
From Coq Require Import ZArith QArith Qabs Qround List.
From Verif Require Import Prelude Matrix Filter FloatNum SpecFloats BuildSim FloatWit SpecFixedRange SpecFixedGain FixedCert LinPath ZPath FloatQ FloatUp FloatCert FloatTrack GravityFloat GravityTest GravityTables.
Import ListNotations SpecFloat.
Open Scope Q_scope.

(** the objects that the setup makes: the filter and the observation of tests/gravity.rs, and a control *)
Definition ct_ex32 : control spec_float := Eval vm_compute in let L := literal 24 128 in
  mk_ctl [L 0 1; L 0 1; L 1 1]%Z [L 0 1]%Z [L 1 1]%Z (repeat (L 0 1)%Z 3).
Definition vals_32 : list spec_float := Eval vm_compute in match generate_values 24 128 true 100 with Ok l => l | Panic _ => [] end.
(** after t turns the body has fallen for t seconds *)
Definition fall_e (t i : nat) : Q := let k := inject_Z (Z.of_nat t) in match i with O => (4905 # 1000) * k * k | 1%nat => (981 # 100) * k | _ => 981 # 100 end.
Definition pr_ex (sz : bool) (c : cfg) (f : kalman spec_float) : res (kalman spec_float) :=
  g <- predict c (sf_num 24 128 sz) 3 f ;; r <- control_ c (sf_num 24 128 sz) 3 1 ct_ex32 g ;; Ok (snd r).
Definition turn_ex (sz : bool) := fref_turn 24 128 sz 3 1 (pr_ex sz) ob_32.
Definition res_ex := Eval vm_compute in iter_path (turn_ex true) 100 (with_x0 kf_32 3).
Definition res_ex' := Eval vm_compute in iter_path (turn_ex false) 100 (with_x0 kf_32 3).
Definition Kl_ex := Eval vm_compute in gains_of res_ex.
Definition Wb_ex (j : nat) : Q := 104 # 1000.
Definition B_ex (i : nat) : Q := match i with O => 4 | 1%nat => 5 | _ => 4 end.
Definition Yz_ex := Eval vm_compute in mk_Y kf_32 40 Wb_ex B_ex.
Definition bl_ex := Eval vm_compute in map (fun p => mk_bd ob_32 40 fall_e B_ex (fst p) (snd p)) (combine (seq 0 100) Kl_ex).
Definition tl_ex := Eval vm_compute in map (fun p => mk_tab kf_32 ob_32 40 30 1073741824 65536 1 Wb_ex B_ex (snd (fst p)) (snd p) Az_32 Yz_ex) (combine (combine (seq 0 100) Kl_ex) bl_ex).
Definition x0_ex (i : nat) : Q := match i with O => 0 | 1%nat => 0 | _ => - (381 # 100) end.
