(** * Specification: which layouts of the temporaries the documentation allows *)
From Verif Require Export SpecGen Alias.

(** a region of [len] elements inside memory of size [total] *)
Definition fits (total len : nat) (r : region) : Prop := fst r + snd r <= total /\ len <= snd r.
(** two regions have no element in common *)
Definition apart (r s : region) : Prop := fst r + snd r <= fst s \/ fst s + snd s <= fst r.

(** the rules of observations/regular.rs:175-202: the only forbidden pairs are (S_inv, PHt) and (HP, KHP) *)
Definition obs_layout_ok (total n m : nat) (L : oregions) : Prop :=
  fits total (m * m) (r_Sinv L) /\ fits total (m * n) (r_HP L) /\
  fits total (n * m) (r_PHt L) /\ fits total (n * n) (r_KHP L) /\
  apart (r_Sinv L) (r_PHt L) /\ apart (r_HP L) (r_KHP L).

(** for a whole program; [cts] and [obs] are the dimensions of its controls and observations.  temp_P and the
    temp_BQ are unrestricted, as is everything between different objects. *)
Definition layout_ok (total n : nat) (cts obs : list nat) (L : layout) : Prop :=
  fits total (n * n) (l_P L) /\
  (forall i m, nth_error cts i = Some m -> fits total (n * m) (l_BQ L i)) /\
  (forall j m, nth_error obs j = Some m -> obs_layout_ok total n m (l_ob L j)).
