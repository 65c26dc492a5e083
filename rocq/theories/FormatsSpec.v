(** The same resonances written in the Breit-Wigner formats (LRF 1 and 2) and in the Reich-Moore
    format (LRF 3) of ENDF.  Only the records of the ENDF input are taken from the model. *)
From Coq Require Import List ZArith Reals.
From Verif Require Import HardSphereSpec BreitWignerModel BreitWignerSpec ReichMooreModel.
Import ListNotations.
Open Scope R_scope.

(** The Reich-Moore format splits the fission width over two channels and gives signs to the parts. *)
Record same_line (x : bw_line) (y : rm_line) : Prop := mkSameLine
  { sm_ER : rl_ER y = ln_ER x; sm_AJ : rl_AJ y = ln_AJ x; sm_GN : rl_GN y = ln_GN x; sm_GG : rl_GG y = ln_GG x;
    sm_GF : Rabs (rl_GFA y) + Rabs (rl_GFB y) = ln_GF x; sm_n : 0 <= ln_GN x; sm_g : 0 <= ln_GG x }.
(** ... no competitive width, no radius of its own, and one resonance for each J *)
Record same_l (ap : R) (ls : bw_lstate) (ls' : rm_lstate) : Prop := mkSameL
  { sm_L : rs_L ls' = ls_L ls; sm_LRX : ls_LRX ls = false; sm_APL : rs_APL ls' = 0 \/ rs_APL ls' = ap;
    sm_lines : Forall2 same_line (ls_lines ls) (rs_lines ls');
    sm_J : NoDup (map (fun x => Z.abs (ln_AJ x)) (ls_lines ls)) }.
Record same_file (b : bw_file) (f : rm_file) : Prop := mkSameFile
  { sm_SPI : rf_SPI f = f_SPI b; sm_AP : rf_AP f = f_AP b; sm_ls : Forall2 (same_l (f_AP b)) (f_lstates b) (rf_lstates f) }.
(** The Breit-Wigner formats move a resonance by Gamma_n (S(Er) - S(E)) / (2 P(Er)). *)
Definition unmoved (k a : R -> R) (E : R) (b : bw_file) : Prop :=
  forall ls x, In ls (f_lstates b) -> In x (ls_lines ls) -> ls_L ls = 0%nat \/ ln_GN x = 0 \/ S_at k a (ls_L ls) (ln_ER x) = S_at k a (ls_L ls) E.
