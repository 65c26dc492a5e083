(** When the Breit-Wigner formats of the R-matrix interface should give cross sections. *)
From Coq Require Import List ZArith Reals.
From Verif Require Import Outcome QuantumModel QuantumSpec RMatrixModel ChannelModel BreitWignerModel.
Import ListNotations.
Open Scope R_scope.

(** The l and J (with its sign, doubled) that the file asks for, each once *)
Definition bw_requested (f : bw_file) : list (nat * Z) :=
  concat (map (fun ls => map (fun j => (ls_L ls, j)) (nodup Z.eq_dec (map ln_AJ (ls_lines ls)))) (f_lstates f)).
(** Each of them has a channel of its own *)
Definition own_channels (f : bw_file) (nls : nat) : Prop :=
  exists qs, NoDup qs /\ (forall q, In q qs -> spec_number 1 (f_SPI f) nls q) /\
    Forall2 (fun r q => ql q = fst r /\ qJ q = Z.abs (snd r)) (bw_requested f) qs.
(** Both signs of some J are given for the same l, to tell the two channel spins apart *)
Definition opposite_spins (f : bw_file) : Prop :=
  exists ls x y, In ls (f_lstates f) /\ In x (ls_lines ls) /\ In y (ls_lines ls) /\
    Z.abs (ln_AJ x) = Z.abs (ln_AJ y) /\ ln_AJ x <> ln_AJ y.
(** No resonance, and no partner of one in the competitive channel, at zero energy, and a radius
    for each *)
Definition lines_usable (f : bw_file) (rad : radii) : Prop :=
  forall ls x, In ls (f_lstates f) -> In x (ls_lines ls) ->
    ln_ER x <> 0 /\ (exists r, radius_at (r_P rad) (ln_ER x) = Ok r) /\
    (ls_LRX ls = true -> ln_ER x - ls_QX ls <> 0 /\ exists r, radius_at (r_P rad) (ln_ER x - ls_QX ls) = Ok r).
