(** * Matrix operations that panic half-way: witnesses (I16F16, overflow checks on), for every build with at least 16-bit pointers *)
From Coq Require Import Lia ZArith.
From Verif Require Import Spec Matrix SpecGen BuildSim MatExamples FloatWit FixedNum SpecFixed FixedWit Crash SpecCrash CrashSim CrashExamples CrashMatrix SpecTorn.
Open Scope Z_scope.

Section Wit.
Variables (c : cfg).
Hypothesis Hc : (255 <= usize_max c)%nat.
Notation one := 65536.
Notation FX := (i16f16_num true true).

(** [2; 200] [1 200]: the second column is written first; 400 fits, 40000 does not *)
Lemma mult_half : valid c 2 1 [2 * one; 200 * one] /\ valid c 1 2 [one; 200 * one] /\ valid c 2 2 [0; 0; 0; 0] /\
  mult_cr c FX 2 1 2 [2 * one; 200 * one] [one; 200 * one] [0; 0; 0; 0] = Unwound [0; 400 * one; 0; 0] NumPanic.
Proof. split; [vt Hc|]. split; [vt Hc|]. split; [vt Hc|]. eapply tiny_cr; [apply csim_mult, tiny_stricter, Hc|vm_compute; reflexivity]. Qed.
(** 30000 + 1 fits, 30000 + 30000 does not: the last element has been summed, the first two have not *)
Lemma add_half : valid c 3 1 [one; 30000 * one; 30000 * one] /\ valid c 3 1 [one; 30000 * one; one] /\
  add_inplace_a_cr c FX 3 1 [one; 30000 * one; 30000 * one] [one; 30000 * one; one] = Unwound [one; 30000 * one; 30001 * one] NumPanic.
Proof. split; [vt Hc|]. split; [vt Hc|]. eapply tiny_cr; [apply csim_add_a, tiny_stricter, Hc|vm_compute; reflexivity]. Qed.
(** [2^-16 200; 200 1]: the first diagonal element has become its square root 2^-8; 200 * 2^8 does not fit *)
Lemma cholesky_half : valid c 2 2 [1; 200 * one; 200 * one; one] /\
  cholesky_cr c FX 2 2 [1; 200 * one; 200 * one; one] = Unwound [256; 200 * one; 200 * one; one] NumPanic.
Proof. split; [vt Hc|]. eapply tiny_cr; [apply csim_cholesky, tiny_stricter, Hc|vm_compute; reflexivity]. Qed.
(** the factor with the diagonal (2^-7, 2^-8): the inverse of the second squared is 65536 *)
Lemma invert_half : valid c 2 2 [512; 0; 0; 256] /\ valid c 2 2 [0; 0; 0; 0] /\
  exists s, invert_l_cholesky_cr c FX 2 [512; 0; 0; 256] [0; 0; 0; 0] = Unwound s NumPanic /\ s <> [0; 0; 0; 0].
Proof.
  split; [vt Hc|]. split; [vt Hc|].
  assert (E : exists s, invert_l_cholesky_cr tiny FX 2 [512; 0; 0; 256] [0; 0; 0; 0] = Unwound s NumPanic /\ s <> [0; 0; 0; 0]) by (vm_compute; eexists; split; [reflexivity|discriminate]).
  destruct E as (s & E & Hs). exists s. split; [|exact Hs]. eapply tiny_cr; [apply csim_invert, tiny_stricter, Hc|exact E].
Qed.
End Wit.

(** through a scratch buffer, and a plain difference, on the smallest build: 400 has been written, 40000 cannot; 1 - 1 has been subtracted, -30000 - 30000 cannot *)
Lemma buffered_half : valid cfg8 2 1 [131072; 13107200] /\ valid cfg8 1 2 [65536; 13107200] /\ valid cfg8 2 2 [0; 0; 0; 0] /\ valid cfg8 1 1 [0] /\
  cmap fst (mult_buffered_cr cfg8 (i16f16_num true true) 2 1 2 [131072; 13107200] [65536; 13107200] [0; 0; 0; 0] [0]) = Unwound [0; 400 * 65536; 0; 0] NumPanic.
Proof. assert (Hc : (255 <= usize_max cfg8)%nat) by (apply Nat.le_refl). do 3 (split; [vt Hc|]). try (split; [vt Hc|]). vm_compute. reflexivity. Qed.
Lemma sub_half : valid cfg8 2 1 [-30000 * 65536; 65536] /\ valid cfg8 2 1 [30000 * 65536; 65536] /\ valid cfg8 2 1 [7; 8] /\
  m_sub_cr cfg8 (i16f16_num true true) 2 1 [-30000 * 65536; 65536] [30000 * 65536; 65536] [7; 8] = Unwound [7; 0] NumPanic.
Proof. assert (Hc : (255 <= usize_max cfg8)%nat) by (apply Nat.le_refl). do 3 (split; [vt Hc|]). try (split; [vt Hc|]). vm_compute. reflexivity. Qed.
