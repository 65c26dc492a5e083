From Coq Require Import Reals Lra String ZArith FunctionalExtensionality.
From mathcomp Require Import all_ssreflect all_algebra.
From Verif Require Import Outcome Cplx QuantumModel SpinFactorModel KinematicsModel CoulombModel RMatrixModel RMatrixSpec RMatrixProofs RMatrixCodeProofs RMatrixObservableProofs
  ChannelModel SpinGroupModel SpinGroupSpec SpinGroupProofs SpinGroupEvalProofs SpinGroupTheorems DecoupleSpec DecoupleProofs DecoupleTheorems
  SymmetrySpec SymmetryProofs SymmetryChannelProofs.
Set Implicit Arguments.
Unset Strict Implicit.
Unset Printing Implicit Defensive.
Import GRing.Theory.
Local Open Scope ring_scope.

(** * Lists in another order *)
Lemma mapM_nth (A B : Type) (f : A -> outcome B) (d : A) (e : B) l ys :
  mapM f l = Ok ys -> size ys = size l /\ forall i, (i < size l)%N -> f (nth d l i) = Ok (nth e ys i).
Proof.
  elim: l ys => [|x l IH] ys /=; first by case=> <-.
  case Hf: (f x) => [y| | |] //=; case Hm: (mapM f l) => [zs| | |] //= [<-].
  have [Es H] := IH _ Hm; split; first by rewrite /= Es.
  by move=> [|i] //=; apply: H.
Qed.
Lemma mapM_reorder (A B : Type) (f : A -> outcome B) (d : A) (e : B) l ys idx :
  mapM f l = Ok ys -> all (fun i => i < size l)%N idx ->
  mapM f [seq nth d l i | i <- idx] = Ok [seq nth e ys i | i <- idx].
Proof.
  move=> /(mapM_nth d e) [_ H]; elim: idx => //= i idx IH /andP [Hi /IH E]; by rewrite (H _ Hi) /= E.
Qed.
Lemma all_some_id (A : Type) (ys : seq (option A)) vs : all_some ys = Some vs -> ys = [seq Some v | v <- vs].
Proof.
  elim: ys vs => [|[y|] ys IH] vs //=; first by case=> <-.
  by case E: (all_some ys) => [zs|] //= [<-] /=; rewrite (IH _ E).
Qed.
Lemma all_some_some (A : Type) (vs : seq A) : all_some [seq Some v | v <- vs] = Some vs.
Proof. by elim: vs => //= v vs ->. Qed.
Lemma In_memN (k : nat) s : List.In k s -> k \in s.
Proof. by elim: s => //= x s IH [->|/IH H]; rewrite inE ?eqxx // H orbT. Qed.
Lemma In_nth (A : Type) (d : A) (l : seq A) i : (i < size l)%N -> List.In (nth d l i) l.
Proof. by elim: l i => // x l IH [|i] Hi /=; [left | right; apply: IH]. Qed.

Section Reorder.
Variables (hbar epsilon0 : R) (cwf : nat -> R -> R -> outcome coulomb) (b : boundary_option).
Variables (channels channels' : seq channel) (rs rs' : seq resonance) (g g' : group) (idx : seq nat) (minus : nat -> bool).
Hypotheses (con : constructed channels rs g) (con' : constructed channels' rs' g').
Hypotheses (perm : perm_eq idx (iota 0 (size channels))) (one : one_entrance channels).
Hypothesis Ec : channels' = [seq nth dummy_channel channels i | i <- idx].
Hypothesis Er : rs' = [seq reordered idx minus r | r <- rs].

Let chans : g_channels g = channels.
Proof. by have [t [made _]] := constructed_made con; have [] := makeGroup_ok made. Qed.
Let chans' : g_channels g' = channels'.
Proof. by have [t [made _]] := constructed_made con'; have [] := makeGroup_ok made. Qed.
Let size_idx : size idx = size channels.
Proof. by rewrite (perm_size perm) size_iota. Qed.
Let bound : all (fun i => i < size channels)%N idx.
Proof. by apply/allP => i; rewrite (perm_mem perm) mem_iota. Qed.
Let unique : uniq idx.
Proof. by rewrite (perm_uniq perm) iota_uniq. Qed.
Let n' : gsize g' = size idx.
Proof. by rewrite /gsize chans' Ec size_map. Qed.
Let nn : gsize g = size channels.
Proof. by rewrite /gsize chans. Qed.
Let sub c : List.In c channels' -> List.In c channels.
Proof.
  rewrite Ec => /List.in_map_iff [i [<- /In_memN Hi]]; apply: In_nth; by move/allP: bound; apply.
Qed.

(** the channel of g behind a channel of g' *)
Definition back (i : 'I_(gsize g')) : 'I_(gsize g).
Proof. exists (nth 0%N idx i). rewrite nn; move/allP: bound; apply; apply: mem_nth; by rewrite -n'. Defined.
Let back_inj : injective back.
Proof. by move=> i j /(congr1 val) /= /eqP; rewrite nth_uniq -?n' // => /eqP /val_inj. Qed.
Let back_bij : bijective back.
Proof. by apply: inj_card_bij back_inj _; rewrite !card_ord nn n' size_idx. Qed.
Let chan_back (i : 'I_(gsize g')) : chan i = chan (back i).
Proof. by rewrite /chan chans chans' Ec (nth_map 0%N) // -n'. Qed.

Lemma reorder_values energy vs : groupValues hbar epsilon0 cwf b g energy = Ok (Some vs) ->
  groupValues hbar epsilon0 cwf b g' energy = Ok (Some (only idx vs)).
Proof.
  rewrite /groupValues chans chans' Ec; case Em: (mapM _ _) => [ys| | |] //= [/all_some_id Ey].
  have [Es _] := mapM_nth dummy_channel (None : option values) Em.
  rewrite (mapM_reorder dummy_channel None Em) //=; congr Ok.
  rewrite (_ : [seq nth None ys i | i <- idx] = [seq Some v | v <- only idx vs]) ?all_some_some //.
  rewrite /only -map_comp; apply/eq_in_map => i Hi; rewrite /= Ey (nth_map no_values) //.
  by rewrite -(size_map Some) -Ey Es; move/allP: bound; apply.
Qed.
Lemma reorder_factor energy : channelFactor hbar (first_incident g') energy = channelFactor hbar (first_incident g) energy.
Proof.
  have [t [made _]] := constructed_made con; have [t' [made' _]] := constructed_made con'.
  have [_ [_ [_ [I1 L1]]]] := first_incident_spec made; have [_ [_ [_ [I2 L2]]]] := first_incident_spec made'.
  rewrite chans in L1; rewrite chans' in L2; have {}L2 := sub L2.
  have [E1 [E2 E3]] := one L2 L1 I2 I1.
  have EJ : qJ (c_numbers (first_incident g')) = qJ (c_numbers (first_incident g)).
    case: (channels) made L1 L2 => [|c0 cs] // made L1 L2.
    have [_ H] := group_accepts c0 cs t; case: (Classical_Prop.classic (acceptable_group (c0 :: cs) t)) => [[_ [_ [HJ _]]]|Hn].
    - by have [] := HJ _ _ L2 L1.
    - by rewrite H in made.
  by rewrite /channelFactor /channelWaveNumber /spinFactor E1 E2 E3 EJ.
Qed.
Let sg (i : nat) : bool := minus (nth 0%N idx i).
Let two_steps : rs' = [seq flipped sg r | r <- [seq only_width idx r | r <- rs]].
Proof.
  rewrite Er -map_comp; apply: eq_map => r; rewrite /reordered /flipped /=; congr Resonance.
  apply: (@eq_from_nth _ 0%re); first by rewrite !size_map size_iota.
  move=> i; rewrite size_map => Hi; rewrite (nth_map 0%N) // (nth_map 0%N) ?size_map ?size_iota //.
  by rewrite nth_iota ?size_map // add0n (nth_map 0%N) // /sg.
Qed.
Let separated : separate idx rs.
Proof.
  move=> r i j Hr Hi Hj; right; apply: nth_default; move: Hj; rewrite (perm_mem perm) mem_iota add0n /= -leqNgt.
  have [t [_ [E sz]]] := constructed_made con; by rewrite (sz r) ?E.
Qed.

Section At.
Variables (energy : R) (vs : seq values) (A : 'M[cx]_(gsize g)).
Hypotheses (rl : is_RL b energy rs vs A) (reg : regular energy rs).
Let sz : sized (gsize g) rs.
Proof. by have [t [_ [<- H]]] := constructed_made con; rewrite nn. Qed.
Lemma call_of_RL n (rs1 : seq resonance) (ws : seq values) (s : cache n) B : sized n rs1 -> regular energy rs1 ->
  is_RL b energy rs1 ws B -> exists s1, rl_call b energy rs1 ws s = Some (s1, B).
Proof.
  move=> z1 r1 [u e]; rewrite rl_call_closed // u; eexists.
  by congr (Some (_, _)); rewrite -[X in invmx _ *m X]e mulKmx.
Qed.
Let ws := only idx vs.
Let only_rs := [seq only_width idx r | r <- rs].
Let val_back (i : 'I_(gsize g')) : val_of vs (back i) = val_of ws i.
Proof. by rewrite /val_of /ws /only (nth_map 0%N) // -n'. Qed.
Let R_back i j : R_spec (gsize g) energy rs vs (back i) (back j) = R_spec (gsize g') energy only_rs ws i j.
Proof.
  have W r (i0 : 'I_(gsize g')) : open_width vs r (back i0) = open_width ws (only_width idx r) i0.
    by rewrite /open_width /isclosed val_back /width /= (nth_map 0%N) // -n'.
  by rewrite !mxE big_map; apply: eq_bigr => r _; rewrite !W.
Qed.
Let every (k : 'I_(gsize g)) : k \in codom back.
Proof. by case: back_bij => h _ K; apply/codomP; exists (h k). Qed.
Let zero i (k : 'I_(gsize g)) : k \notin codom back -> R_spec (gsize g) energy rs vs (back i) k = 0.
Proof. by rewrite every. Qed.
Lemma back_RL : exists B : 'M[cx]_(gsize g'), is_RL b energy only_rs ws B /\
  forall i j, U_spec ws B i j = U_spec vs A (back i) (back j).
Proof.
  case: (rl) => u e; have U := part_unit back_inj zero u; have S := part_solves back_inj zero e.
  set B := (\matrix_(i, j) A _ _) in S; exists B.
  have rl' : is_RL b energy only_rs ws B.
    have ER : R_spec (gsize g') energy only_rs ws = \matrix_(i, j) R_spec (gsize g) energy rs vs (back i) (back j).
      by apply/matrixP => i j; rewrite -R_back [RHS]mxE.
    have EL : L_spec (gsize g') b ws = diag_mx (\row_i (\row_i0 Cx (if b is Constant then v_S (val_of vs i0) - v_B (val_of vs i0) else 0)%re
                     (v_P (val_of vs i0))) 0 (back i)).
      by congr diag_mx; apply/rowP => i; rewrite !mxE val_back.
    by rewrite /is_RL ER EL.
  split=> // i j; rewrite !U_entry !T_entry /omega /sqrtP -!/(val_of _ _) !val_back (inj_eq back_inj).
  by rewrite /B mxE.
Qed.
Lemma reorder_RL : exists B : 'M[cx]_(gsize g'), is_RL b energy rs' ws B /\
  forall i j, norm2 (U_spec ws B i j) = norm2 (U_spec vs A (back i) (back j)) /\
    forall z, norm2 ((if j == i then z else 0) - U_spec ws B i j) =
              norm2 ((if back j == back i then z else 0) - U_spec vs A (back i) (back j)).
Proof.
  have [B [rlB HU]] := back_RL.
  have szB : sized (gsize g') only_rs by move=> r /List.in_map_iff [x [<- _]]; rewrite /= size_map n'.
  exists (A_flipped sg B); split; first by rewrite two_steps; exact: (flipped_RL sg szB rlB).
  move=> i j; rewrite (inj_eq back_inj) -HU; split; first exact: norm2_flipped.
  by move=> z; exact: norm2_flipped_diff.
Qed.
Lemma reorder_contribution B factor k :
  (forall i j, norm2 (U_spec ws B i j) = norm2 (U_spec vs A (back i) (back j)) /\
    forall z, norm2 ((if j == i then z else 0) - U_spec ws B i j) =
              norm2 ((if back j == back i then z else 0) - U_spec vs A (back i) (back j))) ->
  capture_id g' = capture_id g ->
  @contribution g' ws B factor k = @contribution g vs A factor k.
Proof.
  move=> H Hk; rewrite /contribution Hk; congr (_ * _)%re.
  rewrite [RHS](reindex back) /=; last exact: (onW_bij _ back_bij).
  apply: eq_big => [c|c _]; first by rewrite chan_back.
  congr (_ + _)%re.
  - rewrite [RHS](reindex back) /=; last exact: (onW_bij _ back_bij).
    by apply: eq_big => [j|j _]; [rewrite chan_back | rewrite (proj2 (H c j)) val_back].
  - case: (k == _) => //; congr (_ - _)%re.
    rewrite [RHS](reindex back) /=; last exact: (onW_bij _ back_bij).
    by apply: eq_bigr => j _; exact: (proj1 (H c j)).
Qed.
End At.

Lemma reorder_capture : capture_id g' = capture_id g.
Proof.
  rewrite /capture_id; congr (Transfer _ _); rewrite chans chans'.
  have [t [made [_ sz]]] := constructed_made con.
  have [t' [made' _]] := constructed_made con'; have [_ [_ [_ [ne' _]]]] := makeGroup_ok made'.
  have H2 : List.In (head dummy_channel channels') channels by apply: sub; case: (channels') ne' => // c cs _; left.
  case: (channels) made H2 => [|c0 cs] // made H2.
  have [_ H] := group_accepts c0 cs t; case: (Classical_Prop.classic (acceptable_group (c0 :: cs) t)) => [[HI _]|Hn].
  - by apply: HI => //; left.
  - by rewrite H in made.
Qed.
Lemma reorder_written k : written g' k = written g k.
Proof.
  rewrite /written reorder_capture chans chans'; congr orb.
  rewrite Ec has_map; have -> : has (fun c => c_reaction c == k) channels = has (preim (nth dummy_channel channels) (fun c => c_reaction c == k)) (iota 0 (size channels)).
    by rewrite -has_map map_nth_iota0 // take_size.
  by apply: eq_has_r; exact: perm_mem.
Qed.

Theorem reordered_evaluation energy (s s1 : cache (gsize g)) (s' : cache (gsize g')) m m1 :
  evaluateGroup hbar epsilon0 cwf b energy s m = Ok (Some (s1, m1)) ->
  exists s1', evaluateGroup hbar epsilon0 cwf b energy s' m = Ok (Some (s1', m1)).
Proof.
  move=> ev; have [vs [A [factor [[Ev [Ef rl]] ad]]]] := evaluate_inv con ev.
  have reg : regular energy rs.
    case: (regular_dec energy rs) => // -[r [Hr [He Hz]]].
    by rewrite (evaluate_fails con Ev Ef Hr He Hz) in ev.
  have Ev' := reorder_values Ev; have Ef' := reorder_factor energy; rewrite Ef in Ef'.
  have [B [rlB HB]] := reorder_RL rl.
  have [t' [made' [Ers' sz']]] := constructed_made con'; have [E1 [Et _]] := makeGroup_ok made'.
  have [first [F1 [F2 _]]] := first_incident_spec made'.
  have szB : sized (gsize g') rs' by rewrite /gsize E1 -Ers'.
  have regB : regular energy rs' by rewrite Er => r /List.in_map_iff [x [<- Hx]]; exact: (reg x Hx).
  have [s1' Hc] := call_of_RL s' szB regB rlB.
  exists s1'; rewrite /evaluateGroup Ev' [bind _ _]/= F1 [bind _ _]/= F2 [bind _ _]/= Ef' Et Ers' Hc.
  congr (Ok (Some (_, _))); rewrite -Ers' in rlB; have ad' := process_spec made' factor rlB m.
  apply: functional_extensionality => k; rewrite ad' ad reorder_written; case: (written g k) => //.
  by rewrite (reorder_contribution factor k HB reorder_capture).
Qed.
End Reorder.
