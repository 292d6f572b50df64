(** * Certificates of tests/gravity.rs and tests/gravity_q_tuned.rs *)
From Coq Require Import ZArith QArith Qabs Qround List.
From Verif Require Import Prelude Matrix Filter FloatNum SpecFloats BuildSim FloatWit SpecFixedRange SpecFixedGain FixedCert LinPath ZPath FloatQ FloatUp FloatCert FloatTrack GravityFloat GravityTest.
Import ListNotations SpecFloat.
Open Scope Q_scope.

(** the objects that the setup makes *)
Definition kf_of (prec emax : Z) : kalman spec_float := let I z := from_int prec emax z in let L := literal prec emax in
  mk_kalman [I 1; I 1; L 1 2; I 0; I 1; I 1; I 0; I 0; I 1]%Z [I 0; I 0; I 6]%Z [L 1 10; I 0; I 0; I 0; I 1; I 0; I 0; I 0; I 1]%Z (repeat (I 0%Z) 9) (repeat (I 0%Z) 3) (repeat (I 0%Z) 9).
Definition ob_of (prec emax : Z) : observation spec_float := let I z := from_int prec emax z in
  mk_obs [I 1; I 0; I 0]%Z [I 0%Z] [literal prec emax 1 2] [I 0%Z] [I 0%Z] (repeat (I 0%Z) 3) [I 0%Z] (repeat (I 0%Z) 3) (repeat (I 0%Z) 3) (repeat (I 0%Z) 9).
Definition kf_32 := Eval vm_compute in kf_of 24 128.
Definition ob_32 := Eval vm_compute in ob_of 24 128.
Definition kf_64 := Eval vm_compute in kf_of 53 1024.
Definition ob_64 := Eval vm_compute in ob_of 53 1024.
(** the body falls with 9.81; the filter's first reading is of time 0, one turn after its initial state *)
Definition fall_q (t i : nat) : Q := let k := inject_Z (Z.of_nat t - 1) in match i with O => (4905 # 1000) * k * k | 1%nat => (981 # 100) * k | _ => 981 # 100 end.

Definition ceil_at (sh : positive) (v : Q) : Z := Qceiling (Qabs v * inject_Z (2 ^ Zpos sh)).
Section Make.
Variables (f : kalman spec_float) (o : observation spec_float) (sh q E : positive) (uz ez : Z) (tr : nat -> nat -> Q) (Wb B : nat -> Q).
Notation A := (qcl 3 (kf_A f)). Notation H := (qcl 3 (ob_H o)).
Definition mk_A : list Z := flat_map (fun i => map (fun k => ceil_at sh (A i k)) (seq 0 3)) (seq 0 3).
Definition mk_Y : list Z := [ceil_at sh (Yt 3 (fun _ => 0%nat) (kf_A f) Wb B 0)].
Definition mk_bd (t : nat) (K : list spec_float) : list Z * list Z * list Z :=
  (map (fun i => ceil_at sh (qcl 1 K i 0)) (seq 0 3), flat_map (fun i => map (fun l => ceil_at sh (lmiss 3 1 (ob_H o) (qcl 1 K) i l)) (seq 0 3)) (seq 0 3), map (fun i => ceil_at sh (Xt tr B t i)) (seq 0 3)).
Definition mk_tab (K : list spec_float) (b : list Z * list Z * list Z) (Az Yz : list Z) : ztab :=
  let cl := closed 3 1 A H (qcl 1 K) in
  let F := map (fun k => map (fun i => Qfloor (cl i k * inject_Z (2 ^ Zpos q))) (seq 0 3)) (seq 0 3) in
  let G := [map (fun i => Qfloor (qcl 1 K i 0 * inject_Z (2 ^ Zpos q))) (seq 0 3)] in
  let T0 := (F, G, [0%Z; 0%Z; 0%Z]) in
  (F, G, map (fun i => Qceiling (((z_sr sh 3 1 uz ez (zmat 3 Az) (zmat 1 (fst (fst b))) (zat (snd b)) (zat Yz) (fun _ => 0%nat) (zmat 3 (snd (fst b))) i # (2 ^ sh)) +
    qsum 3 (fun k => Qabs (zF q T0 i k - cl i k) * B k) + qsum 1 (fun j => Qabs (zK q T0 i j - qcl 1 K i j) * Wb j)) * inject_Z (Zpos E))) (seq 0 3)).
End Make.
Definition gains_of {X Y} (p : option (list (X * list spec_float) * Y)) : list (list spec_float) := match p with Some (l, _) => map snd l | None => [] end.

(** tests/gravity.rs *)
Definition turn_32 (sz : bool) := fref_turn 24 128 sz 3 1 (fun c => predict c (sf_num 24 128 sz) 3) ob_32.
Definition res_32 := Eval vm_compute in iter_path (turn_32 true) 15 (with_x0 kf_32 3).
Definition res_32' := Eval vm_compute in iter_path (turn_32 false) 15 (with_x0 kf_32 3).
Definition Kl_32 := Eval vm_compute in gains_of res_32.
Definition Wb_32 (j : nat) : Q := 451 # 100.
Definition B_32 (i : nat) : Q := match i with O => 10 | 1%nat => 12 | _ => 9 end.
Definition Az_32 := Eval vm_compute in mk_A kf_32 40.
Definition Yz_32 := Eval vm_compute in mk_Y kf_32 40 Wb_32 B_32.
Definition bl_32 := Eval vm_compute in map (fun p => mk_bd ob_32 40 fall_q B_32 (fst p) (snd p)) (combine (seq 0 15) Kl_32).
Definition tl_32 := Eval vm_compute in map (fun p => mk_tab kf_32 ob_32 40 30 1073741824 65536 1 Wb_32 B_32 (snd (fst p)) (snd p) Az_32 Yz_32) (combine (combine (seq 0 15) Kl_32) bl_32).
Definition te_0 : ztab := (repeat [0; 0; 0]%Z 3, [[0; 0; 0]%Z], [0; 0; 0]%Z).
Definition x0_0 (i : nat) : Q := match i with O => - (4905 # 1000) | 1%nat => 981 # 100 | _ => - (381 # 100) end.
(** tests/gravity_q_tuned.rs *)
Definition turn_64 (sz : bool) := fref_turn 53 1024 sz 3 1 (fun c => predict_tuned c (sf_num 53 1024 sz) 3 (literal 53 1024 1 2)) ob_64.
Definition res_64 := Eval vm_compute in iter_path (turn_64 true) 15 (with_x0 kf_64 3).
Definition res_64' := Eval vm_compute in iter_path (turn_64 false) 15 (with_x0 kf_64 3).
Definition Kl_64 := Eval vm_compute in gains_of res_64.
Definition Wb_64 (j : nat) : Q := 156 # 1000.
Definition B_64 (i : nat) : Q := match i with O => 10 | 1%nat => 12 | _ => 9 end.
Definition Az_64 := Eval vm_compute in mk_A kf_64 40.
Definition Yz_64 := Eval vm_compute in mk_Y kf_64 40 Wb_64 B_64.
Definition bl_64 := Eval vm_compute in map (fun p => mk_bd ob_64 40 fall_q B_64 (fst p) (snd p)) (combine (seq 0 15) Kl_64).
Definition tl_64 := Eval vm_compute in map (fun p => mk_tab kf_64 ob_64 40 30 1073741824 1 1 Wb_64 B_64 (snd (fst p)) (snd p) Az_64 Yz_64) (combine (combine (seq 0 15) Kl_64) bl_64).

