(** The parameters of a Reich-Moore file (LRF = 3) written in the R-Matrix Limited format (LRF = 7):
    which file of the second kind holds the same evaluation.  Only the records of the ENDF input
    are taken from the model. *)
From Coq Require Import List ZArith Reals Bool Permutation.
From Verif Require Import Outcome QuantumSpec ChannelModel BreitWignerSpec ReichMooreModel ReichMooreSpec EndfModel EndfSpec.
Import ListNotations.
Open Scope R_scope.

(** An l value of the file and one of its signed J *)
Definition wave : Type := (rm_lstate * Z)%type.
Definition waves (f : rm_file) : list wave :=
  concat (map (fun ls => map (pair ls) (signed_J (rs_lines ls))) (rf_lstates f)).
Definition wave_lines (w : wave) : list rm_line := lines_of (snd w) (rs_lines (fst w)).

(** The entry of the elastic channel: the first pair, no boundary condition *)
Record elastic_entry (rad : radii) (l : nat) (c : endf_channel) : Prop := mkElasticEntry
  { ee_pair : ec_PPI c = 1%nat; ee_l : ec_L c = l; ee_bnd : ec_BND c = 0;
    ee_rad : rad = radii2 (Fixed (ec_APT c)) (Fixed (ec_APE c)) }.

(** The spin group of a wave: elastic, capture and, if the wave is fissile, one fission channel.
    All widths are different from zero. *)
Record wave_group (es : list endf_pair) (rad : radii) (w : wave) (g : endf_group) : Prop := mkWaveGroup
  { wg_J : Z.abs (eg_AJ g) = Z.abs (snd w);
    wg_parity : parity_of (eg_AJ g) (eg_PJ g) (if Nat.even (rs_L (fst w)) then 1 else -1)%Z;
    wg_number : eg_NRS g = length (wave_lines w);
    wg_energies : eg_ER g = map rl_ER (wave_lines w);
    wg_nonzero : forall x, In x (wave_lines w) -> rl_GN x <> 0 /\ rl_GG x <> 0 /\ rl_GFB x = 0;
    wg_channels : exists c d, elastic_entry rad (rs_L (fst w)) c /\ ec_PPI d = 2%nat /\
      ((eg_channels g = [c; d] /\ eg_GAM g = map (fun x => [rl_GN x; rl_GG x]) (wave_lines w) /\
        (forall x, In x (wave_lines w) -> rl_GFA x = 0)) \/
       (exists h, eg_channels g = [c; d; h] /\ eg_GAM g = map (fun x => [rl_GN x; rl_GG x; rl_GFA x]) (wave_lines w) /\
        (forall x, In x (wave_lines w) -> rl_GFA x <> 0) /\ ec_PPI h = 3%nat /\ ec_BND h = 0 /\
        exists fis, nth_error es 2 = Some fis /\ ep_MT fis = 18%Z /\ 0 <= ep_Q fis)) }.
(** A spin group without resonances *)
Definition group_l (g : endf_group) : nat := match eg_channels g with [] => 0 | c :: _ => ec_L c end.
Record empty_group (rad : radii) (nlsc : nat) (g : endf_group) : Prop := mkEmptyGroup
  { eg_number : eg_NRS g = 0%nat;
    eg_l : (group_l g < nlsc)%nat;
    eg_entries : exists c d, eg_channels g = [c; d] /\ elastic_entry rad (group_l g) c /\ ec_PPI d = 2%nat }.

(** The file: a pair for the neutron and the target, as the Reich-Moore file has them, then
    capture, then possibly fission; a group for every wave; and groups without resonances that
    for every l bring the statistical weights to 2l+1 *)
Record converted (f : rm_file) (nlsc : nat) (A : R) (rad : rm_lstate -> radii) (rad0 : radii) (g : endf_limited) : Prop := mkConverted
  { cv_KRM : el_KRM g = 3%Z;
    cv_IFG : el_IFG g = 0%Z;
    cv_pairs : exists el cap rest, el_pairs g = el :: cap :: rest /\
      ep_MT el = 2%Z /\ ep_MA el = 1 /\ ep_MB el = A /\ ep_ZA el = 0 /\ Z.abs (ep_IA el) = 1%Z /\ Z.abs (ep_IB el) = rf_SPI f /\
      ep_Q el = 0 /\ ep_SHF el = 0%Z /\ ep_MT cap = 102%Z;
    cv_groups : exists own empty, Permutation (el_groups g) (own ++ empty) /\
      Forall2 (fun w h => wave_group (el_pairs g) (rad (fst w)) w h) (waves f) own /\
      (forall h, In h empty -> empty_group rad0 nlsc h) /\
      (forall l, (l < nlsc)%nat ->
         Rsum (map (fun h => g_neutron (rf_SPI f) (Z.abs (eg_AJ h))) (filter (fun h => Nat.eqb (group_l h) l) empty)) =
         2 * INR l + 1 - Rsum (map (accounted (rf_SPI f)) (filter (fun ls => Nat.eqb (rs_L ls) l) (rf_lstates f)))) }.
