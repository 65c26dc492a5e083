From Coq Require Import Reals Lra String Permutation.
From mathcomp Require Import all_ssreflect all_algebra.
From Verif Require Import Outcome KinematicsModel Cplx RMatrixModel RMatrixSpec RMatrixProofs
  RMatrixCodeProofs RMatrixObservableProofs ChannelModel SpinGroupModel SpinGroupSpec.
Set Implicit Arguments.
Unset Strict Implicit.
Unset Printing Implicit Defensive.
Import GRing.Theory.
Local Open Scope ring_scope.

(** * The constructor *)
Lemma bind_ok (A B : Type) (o : outcome A) (f : A -> outcome B) x :
  bind o f = Ok x -> exists a, o = Ok a /\ f a = Ok x.
Proof. by case: o => // a; exists a. Qed.

Lemma makeGroup_ok channels t g : makeGroup channels t = Ok g ->
  g_channels g = channels /\ g_table g = t /\ g_incident g = determineIncident 0 channels /\
  channels <> [::] /\ g_reactions g = List.app (List.map c_reaction channels) (cons (capture_id g) nil) /\
  size (t_channels t) = size channels /\ g_incident g <> [::].
Proof.
  rewrite /makeGroup => H.
  have [rs [Er {}H]] := bind_ok H; have [[] [E1 {}H]] := bind_ok H.
  have [[] [E2 {}H]] := bind_ok H; have [[] [E3 {}H]] := bind_ok H.
  case: H => <- /=.
  move: Er; rewrite /makeReactionIdentifiers; case: channels E1 E2 E3 => [|c cs] // E1 E2 E3 [Er].
  rewrite -{1}Er /capture_id /=; split=> //; split=> //; split => //; split=> //; split=> //; split.
    move: E3; rewrite /verifyResonanceChannels => E3; have [[] [H _]] := bind_ok E3.
    move: H; rewrite /check; case E: (PeanoNat.Nat.eqb _ _) => // _.
    by move/PeanoNat.Nat.eqb_eq: E => /= ->.
  move: E2; rewrite /verifyIncidentChannels /=; by case: (if isIncidentChannel c then _ else _).
Qed.

Lemma makeTable_sized cs rs t : makeTable cs rs = Ok t ->
  t_channels t = cs /\ t_resonances t = rs /\ sized (size cs) rs.
Proof.
  rewrite /makeTable => H; have [[] [E {}H]] := bind_ok H; case: H => <-; split=> //; split=> //.
  elim: rs E => [|r rs IH] H; [by []|]; have [[] [H1 H2]] := bind_ok H => r' [<- | Hr]; last exact: IH.
  by move: H1; rewrite /check; case E: (PeanoNat.Nat.eqb _ _) => // _; move/PeanoNat.Nat.eqb_eq: E.
Qed.

Lemma incident_spec channels start (i : nat) :
  (i \in determineIncident start channels) =
  (start <= i < start + size channels)%N && isIncidentChannel (nth dummy_channel channels (i - start)%N).
Proof.
  elim: channels start => [|c cs IH] start /=.
    by rewrite addn0 in_nil; case: leqP => //=; case: ltnP => // H1 H2; move: (leq_ltn_trans H2 H1); rewrite ltnn.
  have H : (i \in determineIncident start.+1 cs) =
     (start < i < start + (size cs).+1)%N && isIncidentChannel (nth dummy_channel (c :: cs) (i - start)%N).
    rewrite IH addSnnS; case: ltnP => //= lt.
    by rewrite -(subnSK lt).
  case: (altP (i =P start)) => [E | ne].
    rewrite {2 3 4}E leqnn subnn /= addnS ltnS leq_addr /=.
    case: (isIncidentChannel c); first by rewrite E inE eqxx.
    by rewrite IH E ltnn.
  rewrite leq_eqVlt eq_sym (negbTE ne) /= -H.
  by case: (isIncidentChannel c); rewrite ?inE ?(negbTE ne).
Qed.

Lemma incident_uniq channels start : uniq (determineIncident start channels).
Proof.
  elim: channels start => //= c cs IH start; case: (isIncidentChannel c) => //=.
  by rewrite IH andbT incident_spec ltnn.
Qed.

Section Made.
Variables (channels : seq channel) (t : table) (g : group).
Hypothesis made : makeGroup channels t = Ok g.

Lemma incident_ord_spec (c : 'I_(gsize g)) : (c \in incident_ord g) = isIncidentChannel (chan c).
Proof.
  have [E1 [_ [E2 _]]] := makeGroup_ok made.
  rewrite /incident_ord mem_pmap_sub /= E2 incident_spec add0n subn0 /= -E1.
  by rewrite (ltn_ord c).
Qed.
Lemma incident_ord_uniq : uniq (incident_ord g).
Proof.
  have [_ [_ [E2 _]]] := makeGroup_ok made.
  by rewrite /incident_ord pmap_sub_uniq // E2 incident_uniq.
Qed.
Lemma incident_ord_nonempty : exists c, c \in incident_ord g.
Proof.
  have [E1 [_ [E2 [_ [_ [_ ne]]]]]] := makeGroup_ok made.
  case E: (g_incident g) ne => [|i s] // _.
  have : i \in g_incident g by rewrite E inE eqxx.
  rewrite E2 incident_spec add0n /= -E1 => /andP [lt H].
  by exists (Ordinal lt); rewrite incident_ord_spec /chan /= -(subn0 i).
Qed.
Lemma incident_in_range i : i \in g_incident g -> (i < gsize g)%N.
Proof.
  have [E1 [_ [E2 _]]] := makeGroup_ok made.
  by rewrite E2 incident_spec /gsize E1 => /andP [/andP [_ H] _].
Qed.

Lemma reactions_enum : g_reactions g = [seq c_reaction (chan j) | j <- enum 'I_(gsize g)] ++ [:: capture_id g].
Proof.
  have [E1 [_ [_ [_ [E2 _]]]]] := makeGroup_ok made.
  rewrite E2; congr (_ ++ _); rewrite -E1.
  rewrite -[List.map _ _]/([seq c_reaction c | c <- g_channels g]).
  apply: (@eq_from_nth _ (c_reaction dummy_channel)); first by rewrite size_map size_map size_enum_ord.
  move=> i; rewrite size_map => Hi.
  rewrite (nth_map dummy_channel) //.
  have Hi' : (i < gsize g)%N by [].
  rewrite (nth_map (Ordinal Hi')) ?size_enum_ord //.
  by rewrite /chan nth_enum_ord.
Qed.

Lemma written_reactions k : (k \in g_reactions g) = written g k.
Proof.
  have [E1 [_ [_ [_ [E2 _]]]]] := makeGroup_ok made.
  rewrite E2 mem_cat inE orbC /written; congr (_ || _); rewrite -E1.
  elim: (g_channels g) => //= c cs IH; by rewrite inE IH eq_sym.
Qed.

Lemma zip_sum (k : reactionID) (f : 'I_(gsize g) -> R) (y : R) :
  (\big[Rplus/0%re]_(kv <- zip (g_reactions g) ([seq f j | j <- enum 'I_(gsize g)] ++ [:: y]) | kv.1 == k) kv.2)
  = (\big[Rplus/0%re]_(j | c_reaction (chan j) == k) f j + (if k == capture_id g then y else 0))%re.
Proof.
  rewrite reactions_enum zip_cat; last by rewrite !size_map.
  rewrite big_cat /= big_mkcond [in X in (_ + X)%re]big_mkcond big_seq1 /= eq_sym; congr Rplus.
  rewrite -big_mkcond zip_map big_map /= big_enum_cond /=.
  by apply: eq_bigl.
Qed.

Lemma keys_zip (f : seq R) : size f = (gsize g).+1 ->
  [seq kv.1 | kv <- zip (g_reactions g) f] = g_reactions g.
Proof.
  move=> sz; apply: (@unzip1_zip _ _ (g_reactions g) f).
  by rewrite reactions_enum size_cat size_map size_enum_ord /= addn1 sz.
Qed.

Section Value.
Variables (b : boundary_option) (energy : R) (vs : seq values) (factor : R).
Variable (A : 'M[cx]_(gsize g)).
Hypothesis rl : is_RL b energy (t_resonances t) vs A.

Lemma crossSections_code c : crossSections factor vs A c =
  [seq (factor * norm2 ((if j == c then cis (v_w (val_of vs c)) else 0%R) - U_spec vs A c j)%R)%re | j <- enum 'I_(gsize g)]
   ++ [:: (factor * (1 - \big[Rplus/0]_j norm2 (U_spec vs A c j)))%re].
Proof. by rewrite /crossSections map_cat (sigma_code rl) -map_comp /= (capture_code rl). Qed.

Lemma process_spec (m : reaction_map) :
  added (written g) (@contribution g vs A factor) m
    (processIncidentChannels (g_reactions g) factor vs A (incident_ord g) m).
Proof.
  move=> k; rewrite /processIncidentChannels -written_reactions.
  have one (m' : reaction_map) c : processIncidentChannel (g_reactions g) factor vs A m' c k =
    if k \in g_reactions g then Some (odflt 0 (m' k) + factor *
      (\big[Rplus/0]_(j | c_reaction (chan j) == k)
         norm2 ((if j == c then cis (v_w (val_of vs c)) else 0%R) - U_spec vs A c j)%R
      + (if k == capture_id g then 1 - \big[Rplus/0]_j norm2 (U_spec vs A c j) else 0)))%re else m' k.
    rewrite /processIncidentChannel foldl_map_add keys_zip; last first.
      by rewrite crossSections_code size_cat size_map size_enum_ord /= addn1.
    rewrite crossSections_code zip_sum -big_distrr /= Rmult_plus_distr_l.
    by case: ifP => // _; congr (Some (_ + (_ + _))%re); case: ifP => // _; ring.
  pose F c := (\big[Rplus/0]_(j | c_reaction (chan j) == k)
         norm2 ((if j == c then cis (v_w (val_of vs c)) else 0%R) - U_spec vs A c j)%R
      + (if k == capture_id g then 1 - \big[Rplus/0]_j norm2 (U_spec vs A c j) else 0))%re.
  have many (s : seq 'I_(gsize g)) (m' : reaction_map) :
    foldl (processIncidentChannel (g_reactions g) factor vs A) m' s k =
    if k \in g_reactions g then
      (if s is [::] then m' k else Some (odflt 0 (m' k) + factor * \big[Rplus/0]_(c <- s) F c)%re) else m' k.
    elim: s m' => [|c s IH] m' /=; first by case: ifP.
    rewrite IH one -/(F c); case: (k \in _) => //.
    case: s IH => [|c' s] IH; first by rewrite big_seq1.
    by rewrite [in RHS]big_cons /=; congr Some; ring.
  rewrite many; case: ifP => // _.
  have [c0 Hc0] := incident_ord_nonempty.
  case E: (incident_ord g) Hc0 => [|c s] // _; rewrite -E; congr (Some (_ + _))%re.
  rewrite /contribution; congr Rmult.
  rewrite big_uniq ?incident_ord_uniq //; apply: eq_bigl => c'.
  exact: incident_ord_spec.
Qed.
End Value.
End Made.
