(** * Concrete filters meeting the hypotheses of PropRounding.v *)
From Coq Require Import ZArith Reals Lia Lra.
From Flocq Require Import Core BinarySingleNaN.
From Verif Require Import Prelude Spec Matrix Filter Extended History SpecFilter BuildSim FloatNum SpecFloats FloatWit SpecReal SpecParam SpecIeee FloatFlocq FloatFmt BitsExamples RealExamples.
Import SpecFloat.

Lemma ct_fmt_ex : ct_format 24 128 ct_ex.
Proof. unfold ct_format, all_in_format; cbn [ct_B ct_u ct_Q ct_ex]. repeat split; af. Qed.
Lemma ob_fmt_ex : ob_format 24 128 ob_ex.
Proof. unfold ob_format, all_in_format; cbn [ob_H ob_z ob_R ob_y ob_S ob_K ob_Sinv ob_HP ob_PHt ob_KHP ob_ex]. repeat split; af. Qed.
Lemma kf_fmt_ex : kf_format 24 128 kf_ex /\ all_in_format 24 128 (kf_px kf_ex) /\ all_in_format 24 128 (kf_tP kf_ex).
Proof. unfold kf_format, all_in_format; cbn [kf_A kf_x kf_P kf_Q kf_px kf_tP kf_ex]. repeat split; af. Qed.

(** one measured component *)
Definition ob_one : observation spec_float :=
  mk_obs [f32 1 0; f32 1 (-1)] [f32 2 0] [f32 1 (-3)] [z32] [z32] [z32; z32] [z32] [z32; z32] [z32; z32] [z32; z32; z32; z32].
Lemma ob_one_fmt : ob_format 24 128 ob_one.
Proof. unfold ob_format, all_in_format; cbn [ob_H ob_z ob_R ob_y ob_S ob_K ob_Sinv ob_HP ob_PHt ob_KHP ob_one]. repeat split; af. Qed.

Section Ex.
Variables (c : cfg) (sz : bool).
Hypothesis Hc : (255 <= usize_max c)%nat.
Lemma round_control_example : kf_valid c 2 kf_ex /\ ct_valid c 2 1 ct_ex /\ kf_format 24 128 kf_ex /\ ct_format 24 128 ct_ex /\
  exists k' f', control_ c (f32_num sz) 2 1 ct_ex kf_ex = Ok (k', f') /\ all_finite (kf_P f').
Proof.
  pose proof (bits_examples c sz Hc) as (_ & _ & _ & _ & _ & H & _). split; [apply kf_ex_valid, Hc|]. split; [apply ct_ex_valid, Hc|]. split; [apply kf_fmt_ex|]. split; [apply ct_fmt_ex|exact H].
Qed.
Lemma round_correct_example : kf_valid c 2 kf_ex /\ ob_valid c 2 2 ob_ex /\ kf_format 24 128 kf_ex /\ all_in_format 24 128 (kf_px kf_ex) /\
  all_in_format 24 128 (kf_tP kf_ex) /\ ob_format 24 128 ob_ex /\ exists o' f', correct c (f32_num sz) 2 2 ob_ex kf_ex = Ok (o', f') /\ all_finite (kf_P f').
Proof.
  pose proof (bits_examples c sz Hc) as (_ & _ & _ & _ & _ & _ & H). destruct kf_fmt_ex as (A & B & D).
  split; [apply kf_ex_valid, Hc|]. split; [apply ob_ex_valid, Hc|]. split; [exact A|]. split; [exact B|]. split; [exact D|]. split; [apply ob_fmt_ex|exact H].
Qed.
Lemma chol_finite_example : valid c 2 2 (kf_P kf_ex) /\ all_in_format 24 128 (kf_P kf_ex) /\
  exists L, cholesky_decompose_lower c (f32_num sz) 2 2 (kf_P kf_ex) = Ok (true, L) /\ all_finite L.
Proof.
  split; [apply (kf_ex_valid c Hc)|]. split; [apply (err_example c Hc)|].
  assert (E : exists L, cholesky_decompose_lower tiny (f32_num sz) 2 2 (kf_P kf_ex) = Ok (true, L) /\ all_finite L) by (destruct sz; vm_compute; eexists; split; reflexivity).
  destruct E as (L & E & F). exists L. split; [exact (cholesky_tiny c Hc _ _ _ _ E)|exact F].
Qed.
Lemma ob_one_valid : ob_valid c 2 1 ob_one. Proof. red. vt Hc. Qed.
Lemma scalar_gain_example : kf_valid c 2 kf_ex /\ ob_valid c 2 1 ob_one /\ kf_format 24 128 kf_ex /\ all_in_format 24 128 (kf_px kf_ex) /\
  all_in_format 24 128 (kf_tP kf_ex) /\ ob_format 24 128 ob_one /\
  exists o' f', correct c (f32_num sz) 2 1 ob_one kf_ex = Ok (o', f') /\ all_finite (kf_x f') /\ all_finite (ob_S o') /\ all_finite (kf_P f').
Proof.
  destruct kf_fmt_ex as (A & B & D). pose proof (tiny_stricter c Hc) as HS.
  split; [apply kf_ex_valid, Hc|]. split; [apply ob_one_valid|]. split; [exact A|]. split; [exact B|]. split; [exact D|]. split; [apply ob_one_fmt|].
  assert (E : exists o' f', correct tiny (f32_num sz) 2 1 ob_one kf_ex = Ok (o', f') /\ all_finite (kf_x f') /\ all_finite (ob_S o') /\ all_finite (kf_P f'))
    by (destruct sz; vm_compute; do 2 eexists; repeat split; reflexivity).
  destruct E as (k' & f' & E & F). exists k', f'. split; [exact (sim_ok _ _ _ (sim_correct _ _ _ HS _ _ _ _) E)|exact F].
Qed.
End Ex.

(** every filter of representable floats is the image of one of Flocq's *)
Section Image.
Context (prec emax : Z) (Hp : Prec_gt_0 prec) (Hm : Prec_lt_emax prec emax).
Notation LB := (Forall2 (fun (b : binary_float prec emax) x => B2SF b = x)).
Lemma image_list l : all_in_format prec emax l -> exists l', LB l' l.
Proof.
  induction 1 as [|x l Hx _ (l' & IH)]; [exists nil; constructor|]. destruct (vf_B prec emax x Hx) as (b & E). exists (b :: l'). constructor; auto.
Qed.
Lemma image_kf f : kf_format prec emax f -> all_in_format prec emax (kf_px f) -> all_in_format prec emax (kf_tP f) ->
  exists f', SpecParam.kf_rel (fun (b : binary_float prec emax) x => B2SF b = x) f' f.
Proof.
  intros (H1 & H2 & H3 & H4) H5 H6. repeat match goal with H : all_in_format _ _ _ |- _ => apply image_list in H; destruct H as (? & ?) end.
  eexists (mk_kalman _ _ _ _ _ _). repeat split; cbn; eassumption.
Qed.
Lemma image_ct k : ct_format prec emax k -> all_in_format prec emax (ct_BQ k) -> exists k', SpecParam.ct_rel (fun (b : binary_float prec emax) x => B2SF b = x) k' k.
Proof.
  intros (H1 & H2 & H3) H4. repeat match goal with H : all_in_format _ _ _ |- _ => apply image_list in H; destruct H as (? & ?) end.
  eexists (mk_ctl _ _ _ _). repeat split; cbn; eassumption.
Qed.
Lemma image_ob o : ob_format prec emax o -> exists o', SpecParam.ob_rel (fun (b : binary_float prec emax) x => B2SF b = x) o' o.
Proof.
  intros (H1 & H2 & H3 & H4 & H5 & H6 & H7 & H8 & H9 & H10). repeat match goal with H : all_in_format _ _ _ |- _ => apply image_list in H; destruct H as (? & ?) end.
  eexists (mk_obs _ _ _ _ _ _ _ _ _ _). repeat split; cbn; eassumption.
Qed.
Lemma image_world f cts obs : kf_format prec emax f -> all_in_format prec emax (kf_px f) -> all_in_format prec emax (kf_tP f) ->
  Forall (fun p => ct_format prec emax (snd p) /\ all_in_format prec emax (ct_BQ (snd p))) cts -> Forall (fun p => ob_format prec emax (snd p)) obs ->
  exists w : world (binary_float prec emax), world_rel (fun b x => B2SF b = x) w (mk_world f cts obs).
Proof.
  intros H1 H2 H3 H4 H5. destruct (image_kf f H1 H2 H3) as (f' & Hf).
  assert (HC : exists cts', Forall2 (fun a b => fst a = fst b /\ SpecParam.ct_rel (fun (b : binary_float prec emax) x => B2SF b = x) (snd a) (snd b)) cts' cts).
  { clear - H4. induction H4 as [|(m & k) cts (A & B) _ (cts' & IH)]; [exists nil; constructor|]. destruct (image_ct k A B) as (k' & Hk). exists ((m, k') :: cts'). constructor; auto. }
  assert (HO : exists obs', Forall2 (fun a b => fst a = fst b /\ SpecParam.ob_rel (fun (b : binary_float prec emax) x => B2SF b = x) (snd a) (snd b)) obs' obs).
  { clear - H5. induction H5 as [|(m & k) cts A _ (cts' & IH)]; [exists nil; constructor|]. destruct (image_ob k A) as (k' & Hk). exists ((m, k') :: cts'). constructor; auto. }
  destruct HC as (cts' & HC), HO as (obs' & HO). exists (mk_world f' cts' obs'). repeat split; cbn; try assumption; apply Hf.
Qed.
End Image.
