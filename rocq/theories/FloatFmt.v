(** * Representable floats stay representable; the element type is Flocq's IEEE 754 arithmetic *)
From Coq Require Import ZArith Reals Lia Lra.
From Flocq Require Import Core BinarySingleNaN.
From Verif Require Import Prelude Spec Matrix Filter Extended History SpecParam Param FloatNum SpecFloats SpecReal SpecIeee FloatFlocq FloatChol FloatOps.
Import SpecFloat.

Section Fmt.
Variables (c : cfg) (prec emax : Z) (sz : bool).
Hypothesis HF : format_ok prec emax.
Notation NN := (sf_num prec emax sz).
#[local] Instance hprec : Prec_gt_0 prec. Proof. unfold Prec_gt_0. destruct HF. lia. Qed.
#[local] Instance hmax : Prec_lt_emax prec emax. Proof. apply HF. Qed.
Notation vf := (valid_binary prec emax).

Definition same_fmt (x y : spec_float) : Prop := x = y /\ vf x = true.
Lemma same_fmt_num : num_rel False same_fmt NN NN.
Proof.
  unfold num_rel, same_fmt. cbn [sf_num n_zero n_one n_sum0 n_le o_add o_sub o_mul o_neg o_recip o_sqrt opt_rel].
  assert (V1 : vf (sf_one prec) = true) by (apply one_format; [exact hmax|apply HF]).
  repeat split; auto; intros; repeat match goal with H : _ /\ _ |- _ => destruct H end; subst; auto.
  - apply vf_add; auto with typeclass_instances.
  - apply vf_sub; auto with typeclass_instances.
  - apply vf_mul; auto with typeclass_instances.
  - apply vf_opp; auto.
  - apply vf_div; auto with typeclass_instances.
  - apply vf_sqrt; auto with typeclass_instances.
Qed.
Lemma fmt_list l : Forall2 same_fmt l l <-> all_in_format prec emax l.
Proof.
  unfold all_in_format. induction l as [|a l IH]; split; intros H; try constructor; inversion H; subst; try apply IH; auto.
  - match goal with H : same_fmt a a |- _ => apply H end.
  - split; auto.
Qed.
Lemma fmt_list2 l l' : Forall2 same_fmt l l' -> all_in_format prec emax l'.
Proof. induction 1 as [|a b l l' (-> & V) _ IH]; constructor; auto. Qed.
End Fmt.

Section Ieee.
Variables (c : cfg) (prec emax : Z) (sz : bool).
Context (Hp : Prec_gt_0 prec) (Hm : Prec_lt_emax prec emax).
Lemma one_ieee : (1 < prec)%Z -> B2SF (Bone : binary_float prec emax) = sf_one prec.
Proof.
  intros H1. assert (V : valid_binary prec emax (sf_one prec) = true) by (apply one_format; assumption).
  destruct (vf_B prec emax _ V) as (b & E). rewrite E. f_equal. apply B2R_inj.
  - apply is_finite_strict_Bone.
  - destruct b; try discriminate E. reflexivity.
  - rewrite Bone_correct, <- SF2R_B2SF, <- E. symmetry. apply one_val; assumption.
Qed.
Lemma ieee_sf : (1 < prec)%Z -> num_rel False (fun b x => B2SF b = x) (ieee_num prec emax Hp Hm sz) (sf_num prec emax sz).
Proof.
  intros H1. unfold num_rel, opt_rel. cbn [sf_num ieee_num n_zero n_one n_sum0 n_le o_add o_sub o_mul o_neg o_recip o_sqrt].
  repeat match goal with |- _ /\ _ => split end; intros; subst; try reflexivity.
  - apply one_ieee, H1.
  - symmetry. apply add_equiv.
  - symmetry. apply sub_equiv.
  - symmetry. apply mul_equiv.
  - symmetry. apply opp_equiv.
  - rewrite <- one_ieee by exact H1. symmetry. apply div_equiv.
  - symmetry. apply sqrt_equiv.
Qed.
Lemma run_ieee : (1 < prec)%Z -> forall n w v os qs, world_rel (fun b x => B2SF b = x) w v -> Forall2 (op_rel False (fun b x => B2SF b = x)) os qs ->
  res_rel False (world_rel (fun b x => B2SF b = x)) (run c (ieee_num prec emax Hp Hm sz) n w os) (run c (sf_num prec emax sz) n v qs).
Proof. intros H1 n w v os qs Hw Ho. apply run_param; auto. apply ieee_sf, H1. Qed.
End Ieee.
