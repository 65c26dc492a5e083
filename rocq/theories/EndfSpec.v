(** What the conversion of ENDF parameters has to do, without the model's helpers. *)
From Coq Require Import String List ZArith Reals Bool.
From Verif Require Import Outcome QuantumModel QuantumSpec HardSphereModel KinematicsModel CoulombModel RMatrixModel ChannelModel ReichMooreModel
  AssemblyModel AssemblySpec EndfModel.
Import ListNotations.
Open Scope R_scope.

(** * Pairs *)
(** [k] is the position of the first occurrence *)
Definition first_at {A} (x : A) (l : list A) (k : nat) : Prop :=
  exists a b, l = a ++ x :: b /\ length a = k /\ ~ In x a.
(** The spin and the parity of a particle or a spin group: the sign of the spin gives the
    parity, unless the spin is zero *)
Definition parity_of (spin parity p : Z) : Prop :=
  (spin > 0 -> p = 1)%Z /\ (spin < 0 -> p = -1)%Z /\ (spin = 0 -> parity >= 0 -> p = 1)%Z /\
  (spin = 0 -> parity < 0 -> p = -1)%Z.

(** * Channels *)
(** What ENDF means by the MT number of a pair *)
Definition kind (mt : Z) (charge : R) (t : channel_type) : Prop :=
  (mt = 102%Z /\ t = Photon) \/
  (In mt [18; 19; 20; 21; 38]%Z /\ t = Fission) \/
  (mt <> 102%Z /\ ~ In mt [18; 19; 20; 21; 38]%Z /\ 0 < charge /\ t = ChargedParticle) \/
  (mt <> 102%Z /\ ~ In mt [18; 19; 20; 21; 38]%Z /\ ~ 0 < charge /\ t = Neutron).
(** The channel an entry of a spin group describes: everything comes from the pair with the
    number of the entry (counted from one), the type from [mt] *)
Record described (inc : particlePair) (pairs : list particlePair) (es : list endf_pair) (g : endf_group)
    (e : endf_channel) (mt : Z) (c : channel) : Prop := mkDescribed
  { de_pair : exists n, ec_PPI e = S n /\ nth_error pairs n = Some (c_pair c);
    de_q : exists n x, ec_PPI e = S n /\ nth_error es n = Some x /\ c_q c = ep_Q x;
    de_type : kind mt (p_charge (pp_particle (c_pair c))) (c_type c);
    de_incident : c_incident c = inc;
    de_l : ql (c_numbers c) = ec_L e;
    de_s : qs (c_numbers c) = ec_SCH e;
    de_J : qJ (c_numbers c) = Z.abs (eg_AJ g);
    de_p : parity_of (eg_AJ g) (eg_PJ g) (qp (c_numbers c));
    de_P : r_P (c_radii c) = Fixed (ec_APT e);
    de_S : r_S (c_radii c) = Fixed (ec_APT e);
    de_phi : r_phi (c_radii c) = Fixed (ec_APE e);
    de_boundary : c_boundary c = ec_BND e;
    de_id : c_id c = makeChannelID (pp_id (c_pair c)) (c_numbers c);
    de_reaction : c_reaction c = makeReactionID inc (c_pair c) }.
(** The MT number of the pair of an entry *)
Definition own_mt (es : list endf_pair) (e : endf_channel) (mt : Z) : Prop :=
  exists n x, ec_PPI e = S n /\ nth_error es n = Some x /\ ep_MT x = mt.
Definition valid_number (es : list endf_pair) (e : endf_channel) : Prop := (1 <= ec_PPI e <= length es)%nat.

(** * Widths *)
(** The reduced width [gamma] of a width for the penetrability [p] *)
Definition reduced (p width gamma : R) : Prop :=
  2 * p * (gamma * gamma) = Rabs width /\ (0 < width -> 0 < gamma) /\ (width < 0 -> gamma < 0) /\ (width = 0 -> gamma = 0).
Definition nonzero_entries (l : list (R * R)) : list (R * R) :=
  filter (fun ew => if Req_EM_T (snd ew) 0 then false else true) l.
(** The (energy, width) pairs of the i-th channel of a spin group *)
Definition listed (g : endf_group) (i : nat) (l : list (R * R)) : Prop :=
  exists ws, Forall2 (fun row w => nth_error row i = Some w) (eg_GAM g) ws /\ l = combine (eg_ER g) ws.

(** The data of the i-th channel: the nonzero widths, as reduced widths unless they are
    already; without nonzero widths there is data for incident channels only *)
Definition channel_result (penetrability : channel -> R -> option R) (g : endf_group) (flag eliminated : bool) (i : nat)
    (c : channel) (ds : list channel_data) : Prop :=
  (eg_NRS g = 0%nat /\ ds = (if isIncidentChannel c then [mkChannelData c [] [] false] else [])) \/
  (eg_NRS g <> 0%nat /\ exists l, listed g i l /\
    ((nonzero_entries l = [] /\ ds = (if isIncidentChannel c then [mkChannelData c [] [] false] else [])) \/
     (nonzero_entries l <> [] /\ exists d, ds = [d] /\ cd_channel d = c /\ cd_eliminated d = eliminated /\ consistent d /\
       Forall2 (fun x y => fst x = fst y /\
                           (flag = true -> snd x = snd y) /\
                           (flag = false -> exists p, penetrability c (fst x) = Some p /\ 0 < p /\ reduced p (snd x) (snd y)))
               (nonzero_entries l) (entries d)))).

(** * Reich-Moore parameters *)
Definition fissile (r : rm_line) : Prop := rl_GFA r <> 0 \/ rl_GFB r <> 0.
(** Two resonances with fission widths whose spins differ only in sign, or that appear with
    the same l and J in two l-values *)
Definition clash (f : rm_file) : Prop :=
  (exists ls r r', In ls (rf_lstates f) /\ In r (rs_lines ls) /\ In r' (rs_lines ls) /\ fissile r /\ fissile r' /\
     Z.abs (rl_AJ r) = Z.abs (rl_AJ r') /\ rl_AJ r <> rl_AJ r') \/
  (exists a ls b ls' c r r', rf_lstates f = a ++ ls :: b ++ ls' :: c /\ rs_L ls = rs_L ls' /\
     In r (rs_lines ls) /\ In r' (rs_lines ls') /\ fissile r /\ fissile r' /\ Z.abs (rl_AJ r) = Z.abs (rl_AJ r')).

(** * Radii *)
(** The channel radius of ENDF in terms of the mass of the target *)
Definition derived_radius (mass a : R) : Prop := exists r, r * r * r = mass /\ a = 0.123 * r + 0.08.
(** The radii for the penetrability and the shift factor, and for the phase shift, that the
    manual prescribes for the flags NRO (a table is given) and NAPS *)
Definition prescribed (ap mass : R) (nro : option (R -> outcome R)) (naps : nat) (rad : radii) : Prop :=
  match nro, naps with
  | None, 0%nat => (exists a, derived_radius mass a /\ r_P rad = Fixed a /\ r_S rad = Fixed a) /\ r_phi rad = Fixed ap
  | None, 1%nat => r_P rad = Fixed ap /\ r_S rad = Fixed ap /\ r_phi rad = Fixed ap
  | Some t, 0%nat => (exists a, derived_radius mass a /\ r_P rad = Fixed a /\ r_S rad = Fixed a) /\ r_phi rad = Tabulated t
  | Some t, 1%nat => r_P rad = Tabulated t /\ r_S rad = Tabulated t /\ r_phi rad = Tabulated t
  | Some t, 2%nat => r_P rad = Fixed ap /\ r_S rad = Fixed ap /\ r_phi rad = Tabulated t
  | _, _ => False
  end.
(** The combinations of flags the manual knows *)
Definition legal (table : bool) (naps : Z) : Prop :=
  if table then naps = 0%Z \/ naps = 1%Z \/ naps = 2%Z else naps = 0%Z \/ naps = 1%Z.

(** * Dispatch *)
(** The combinations that are implemented, with the alternative of the parameters *)
Definition accepted (r : endf_range) : Prop :=
  (er_LRU r = 1%Z /\ er_LRF r = 1%Z /\ exists f, er_parameters r = ParametersSLBW f) \/
  (er_LRU r = 1%Z /\ er_LRF r = 2%Z /\ exists f, er_parameters r = ParametersMLBW f) \/
  (er_LRU r = 1%Z /\ er_LRF r = 3%Z /\ exists f n, er_parameters r = ParametersReichMoore f n) \/
  (er_LRU r = 1%Z /\ er_LRF r = 7%Z /\ exists f, er_parameters r = ParametersLimited f /\ el_KRM f = 3%Z) \/
  (er_LRU r = 2%Z /\ ((exists s a u, er_parameters r = ParametersIndependent s a u) \/
                      (exists s a e u, er_parameters r = ParametersFission s a e u) \/
                      (exists s a u, er_parameters r = ParametersDependent s a u))).
(** Not undefined behaviour *)
Definition defined {A} (o : outcome A) : Prop := (exists x, o = Ok x) \/ (exists e, o = Throw e).

(** * The data of Reich-Moore parameters *)
Definition rows_of (ls : rm_lstate) (j : Z) : list rm_line := filter (fun r => (rl_AJ r =? j)%Z) (rs_lines ls).
(** The numbers of the channels without penetrability *)
Definition other_numbers (ls : rm_lstate) (j : Z) : qnum :=
  mkQ (rs_L ls) 0 (Z.abs j) (if Nat.even (rs_L ls) then 1 else -1)%Z.
(** A channel with one width for each row *)
Definition partial_data (c : channel) (rows : list rm_line) (rel : rm_line -> R -> Prop) (eliminated : bool)
    (d : channel_data) : Prop :=
  cd_channel d = c /\ cd_eliminated d = eliminated /\ cd_energies d = map rl_ER rows /\ Forall2 rel rows (cd_widths d).
(** The channels of one l and J of the file: elastic scattering, the eliminated capture, and
    one fission channel for each kind of fission width that is ever used *)
Definition rm_channel (t : channel_type) (inc : particlePair) (pair name : string) (rad : radii) (n : qnum) : channel :=
  makeChannel t inc (makeParticlePair (pp_particle inc) (pp_residual inc) pair) name 0 n rad 0.
Record rm_block (penetrability : channel -> R -> option R) (ls : rm_lstate) (inc : particlePair) (rad : radii) (j : Z)
    (n : qnum) (ds : list channel_data) : Prop := mkRMBlock
  { rb_numbers : ql n = rs_L ls /\ qJ n = Z.abs j;
    rb_data : exists elastic capture fission, ds = elastic :: capture :: fission /\
      (let c := rm_channel Neutron inc (pp_id inc) (pp_id inc) rad n in
       partial_data c (rows_of ls j)
         (fun r gamma => exists p, penetrability c (rl_ER r) = Some p /\ reduced p (rl_GN r) gamma) false elastic) /\
      partial_data (rm_channel Photon inc "capture" "capture" rad (other_numbers ls j)) (rows_of ls j)
         (fun r gamma => reduced 1 (rl_GG r) gamma) true capture /\
      (let fis name width d := partial_data (rm_channel Fission inc "fission" name rad (other_numbers ls j)) (rows_of ls j)
                                 (fun r gamma => reduced 1 (width r) gamma) false d in
       let A := exists r, In r (rows_of ls j) /\ rl_GFA r <> 0 in
       let B := exists r, In r (rows_of ls j) /\ rl_GFB r <> 0 in
       (~ A -> ~ B -> fission = []) /\
       (A -> ~ B -> exists d, fission = [d] /\ fis "fission1"%string rl_GFA d) /\
       (~ A -> B -> exists d, fission = [d] /\ fis "fission1"%string rl_GFB d) /\
       (A -> B -> exists d d', fission = [d; d'] /\ fis "fission1"%string rl_GFA d /\ fis "fission2"%string rl_GFB d')) }.
(** A file the reconstruction should accept *)
Definition requested (f : rm_file) : list (nat * Z) :=
  concat (map (fun ls => map (fun j => (rs_L ls, j)) (nodup Z.eq_dec (map rl_AJ (rs_lines ls)))) (rf_lstates f)).
Record sensible (f : rm_file) (nlsc : nat) (nro : option (R -> outcome R)) (naps : nat) : Prop := mkSensible
  { se_spin : is_spin (rf_SPI f);
    se_nlsc : (0 < nlsc)%nat;
    se_states : rf_lstates f <> [];
    se_flags : legal (match nro with Some _ => true | None => false end) (Z.of_nat naps);
    se_radius : 0 < rf_AP f;
    se_table : forall t e, nro = Some t -> exists a, t e = Ok a /\ 0 < a;
    se_target : forall ls, In ls (rf_lstates f) -> 0 < rs_AWRI ls;
    se_l : forall ls, In ls (rf_lstates f) -> (rs_L ls <= 4)%nat;
    se_APL : forall ls, In ls (rf_lstates f) -> 0 <= rs_APL ls;
    se_energies : forall ls r, In ls (rf_lstates f) -> In r (rs_lines ls) -> rl_ER r <> 0;
    (** every l and J asked for can have its own channel *)
    se_channels : exists qs, NoDup qs /\ (forall q, In q qs -> spec_number 1 (rf_SPI f) nlsc q) /\
      Forall2 (fun r q => ql q = fst r /\ qJ q = Z.abs (snd r)) (requested f) qs }.
