From Coq Require Import Reals Lra Classical Permutation FunctionalExtensionality.
From mathcomp Require Import all_ssreflect all_algebra.
From Verif Require Import Outcome Cplx CoulombModel RMatrixModel RMatrixSpec RMatrixProofs RMatrixCodeProofs RMatrixObservableProofs
  ChannelModel SpinGroupModel SpinGroupSpec SpinGroupProofs SpinGroupEvalProofs DecoupleSpec DecoupleProofs DecoupleTheorems SymmetrySpec.
Set Implicit Arguments.
Unset Strict Implicit.
Unset Printing Implicit Defensive.
Import GRing.Theory.
Local Open Scope ring_scope.

(** * The R_L calculation in closed form *)
Lemma regular_dec E table : {regular E table} + {exists r, List.In r table /\ rs_energy r = E /\ rs_eliminated r = 0%re}.
Proof.
  elim: table => [|r t [IH|IH]]; [by left | | by right; case: IH => x [Hx H]; exists x; split; [right|]].
  case: (Req_EM_T (rs_energy r) E) => He; [case: (Req_EM_T (rs_eliminated r) 0) => Hz|].
  - by right; exists r; split; [left|].
  - by left=> x [<-|Hx]; [right | apply: IH].
  - by left=> x [<-|Hx]; [left | apply: IH].
Qed.
Lemma rl_call_closed n b E table vs (s : cache n) : sized n table -> regular E table ->
  let R := R_spec n E table vs in
  let t := 1%:M - R *m L_spec n b vs in
  rl_call b E table vs s =
  if t \in unitmx then Some (Cache (\row_i lvalue b (val_of vs i)) R (invmx t *m R), invmx t *m R) else None.
Proof.
  move=> sz reg R t.
  have [ms Em] : exists ms, all_some [seq rmatrix r E | r <- table] = Some ms.
    by apply: all_some_map => r /reg H; apply/rmatrix_some.
  rewrite /rl_call Em (code_R _ _ sz Em) lmatrix_spec -/R -/t; case: (t \in unitmx) => //.
  congr (Some (Cache _ _ _, _)).
  have /matrixP H := lmatrix_spec b vs (ca_l s); apply/rowP => i; have := H i i; rewrite !mxE !eqxx !mulr1n => ->.
  by rewrite /lvalue; case: (b).
Qed.

(** * The same resonances *)
Lemma same_regular E rs rs' : same_resonances rs rs' -> regular E rs -> regular E rs'.
Proof.
  move=> [rs'' [Hp H2]] reg.
  have {Hp reg} : regular E rs'' by move=> r Hr; apply: reg; apply: (Permutation_in _ (Permutation_sym Hp)).
  elim: H2 => // r r' t t' [He [Hw _]] _ IH reg x [<-|Hx].
  - rewrite -He; case: (reg r (or_introl erefl)) => H; [by left | right=> Hz; apply: H].
    by move: Hw; rewrite Hz Rabs_R0 => Hw; apply: NNPP => Hn; apply: (Rabs_no_R0 _ Hn).
  - by apply: IH => // y Hy; apply: reg; right.
Qed.
Lemma same_sized n rs rs' : same_resonances rs rs' -> sized n rs -> sized n rs'.
Proof.
  move=> [rs'' [Hp H2]] sz.
  have {Hp sz} : sized n rs'' by move=> r Hr; apply: sz; apply: (Permutation_in _ (Permutation_sym Hp)).
  elim: H2 => // r r' t t' [_ [_ Hw]] _ IH sz x [<-|Hx].
  - by have := sz r (or_introl erefl); case: Hw => -> //; rewrite size_map.
  - by apply: IH => // y Hy; apply: sz; right.
Qed.
Lemma same_symmetric rs rs' : same_resonances rs rs' -> same_resonances rs' rs.
Proof.
  have sym r r' : same_resonance r r' -> same_resonance r' r.
    move=> [E1 [E2 H]]; split=> //; split=> //; case: H => ->; [by left | right].
    by rewrite -map_comp -[LHS]map_id; apply: eq_map => x /=; ring.
  move=> [rs'' [Hp H2]].
  have [rs3 [H3 Hp3]] : exists rs3, List.Forall2 same_resonance rs rs3 /\ Permutation rs3 rs'.
    have {Hp} Hp := Permutation_sym Hp.
    elim: Hp rs' H2 => {rs rs''} [|r t t' Hp IH|r r' t|t1 t2 t3 _ IH1 _ IH2] rs' H2.
    - by inversion H2; exists [::]; split.
    - inversion H2 as [|? y ? l' Hy Hl]; subst; have [rs3 [H3 H4]] := IH _ Hl; exists (y :: rs3); split; by constructor.
    - inversion H2 as [|? y ? l' Hy Hl]; subst; inversion Hl as [|? z ? l Hz Hm]; subst; exists (z :: y :: l); split; last exact: perm_swap.
      by constructor=> //; constructor.
    - have [a [Ha Pa]] := IH1 _ H2; have [c [Hc Pc]] := IH2 _ Ha; exists c; split=> //.
      exact: Permutation_trans Pc Pa.
  exists rs3; split; first exact: Permutation_sym.
  by elim: H3 => [|r r' t t' H _ IH]; constructor=> //; apply: sym.
Qed.
Lemma same_R n E rs rs' vs : same_resonances rs rs' -> R_spec n E rs vs = R_spec n E rs' vs.
Proof.
  move=> [rs'' [Hp H2]]; apply/matrixP => i j; rewrite !mxE.
  transitivity (\sum_(r <- rs'') rcx (open_width vs r i * open_width vs r j)%re / denominator E r).
    elim: Hp => [|r t t' _ IH|r r' t|t1 t2 t3 _ IH1 _ IH2] //; rewrite ?big_cons ?IH //.
    - by rewrite addrCA.
    - by rewrite IH1.
  elim: H2 => [|r r' t t' H _ IH]; first by rewrite !big_nil.
  rewrite !big_cons IH; congr (_ + _); case: H => He [Hg Hw].
  have Hd : denominator E r = denominator E r'.
    rewrite /denominator He; congr (Cx _ (- _)%re).
    by have := Rsqr_abs (rs_eliminated r); have := Rsqr_abs (rs_eliminated r'); rewrite /Rsqr Hg => -> ->.
  rewrite -Hd; congr (rcx _ / _); rewrite /open_width /width.
  case: Hw => ->; first by [].
  have N k : nth 0%re [seq (- x)%re | x <- rs_widths r] k = (- nth 0%re (rs_widths r) k)%re.
    case: (ltnP k (size (rs_widths r))) => Hk; first by rewrite (nth_map 0%re).
    by rewrite !nth_default ?size_map //; ring.
  by rewrite !N; do 2 case: (isclosed _ _); ring.
Qed.
Lemma same_call n b E rs rs' vs (s s' : cache n) : sized n rs -> same_resonances rs rs' ->
  rl_call b E rs vs s = rl_call b E rs' vs s'.
Proof.
  move=> sz H; have sz' := same_sized H sz; case: (regular_dec E rs) => reg.
  - have reg' := same_regular H reg; by rewrite !rl_call_closed // (same_R n E vs H).
  - case: reg => r [Hr [He Hz]]; rewrite (rl_call_none _ _ _ Hr He Hz).
    case: (regular_dec E rs') => [reg|[r' [Hr' [He' Hz']]]]; last by rewrite (rl_call_none _ _ _ Hr' He' Hz').
    by have reg' := same_regular (same_symmetric H) reg; case: (reg' r Hr).
Qed.

Theorem same_evaluation hbar epsilon0 cwf b channels rs rs' g g' energy (s : cache (gsize g)) (s' : cache (gsize g')) m :
  constructed channels rs g -> constructed channels rs' g' -> same_resonances rs rs' ->
  visible (evaluateGroup hbar epsilon0 cwf b energy s m) = visible (evaluateGroup hbar epsilon0 cwf b energy s' m).
Proof.
  move=> [cs [t [Ht Hg]]] [cs' [t' [Ht' Hg']]] H.
  have [_ [Er sz]] := makeTable_sized Ht; have [Ec' [Er' _]] := makeTable_sized Ht'.
  have [G1 [G2 [G3 [_ [G4 [G5 _]]]]]] := makeGroup_ok Hg; have [G1' [G2' [G3' [_ [G4' [G5' _]]]]]] := makeGroup_ok Hg'.
  have {}sz : sized (size channels) rs by rewrite -G5; move: (makeTable_sized Ht) => [-> [_ ?]].
  have Ecap : g_reactions g = g_reactions g' by rewrite G4 G4' /capture_id G1 G1'.
  case: g g' s s' Hg Hg' G1 G2 G3 G4 G1' G2' G3' G4' Ecap => [re1 inc ch tb] [re2 inc' ch' tb'] s s' _ _ /= E1 E2 E3 _ E4 E5 E6 _ E.
  subst ch ch' tb tb' inc inc' re1.
  rewrite /evaluateGroup /groupValues /=; case: (mapM _ _) => //= ovs.
  case: (at_or_ub _ _ _) => //= i; case: (at_or_ub _ _ _) => //= c; case: (all_some ovs) => //= vs.
  case: (channelFactor _ _ _) => //= f; rewrite Er Er' (same_call b energy vs s s' sz H).
  by case: (rl_call _ _ _ _ _) => // -[].
Qed.
Theorem same_T hbar epsilon0 cwf b channels rs rs' g g' energy (s : cache (gsize g)) (s' : cache (gsize g')) m :
  constructed channels rs g -> constructed channels rs' g' -> same_resonances rs rs' ->
  visible (evaluateTGroup hbar epsilon0 cwf b energy s m) = visible (evaluateTGroup hbar epsilon0 cwf b energy s' m).
Proof.
  move=> [cs [t [Ht Hg]]] [cs' [t' [Ht' Hg']]] H.
  have [_ [Er sz]] := makeTable_sized Ht; have [Ec' [Er' _]] := makeTable_sized Ht'.
  have [G1 [G2 [_ [_ [_ [G5 _]]]]]] := makeGroup_ok Hg; have [G1' [G2' _]] := makeGroup_ok Hg'.
  have {}sz : sized (size channels) rs by rewrite -G5; move: (makeTable_sized Ht) => [-> [_ ?]].
  case: g g' s s' Hg Hg' G1 G2 G1' G2' => [re1 inc ch tb] [re2 inc' ch' tb'] s s' _ _ /= E1 E2 E3 E4.
  subst ch ch' tb tb'.
  rewrite /evaluateTGroup /groupValuesT /=; case: (mapM _ _) => //= ovs.
  case: (all_some ovs) => //= vs; rewrite Er Er' (same_call b energy vs s s' sz H).
  by case: (rl_call _ _ _ _ _) => // -[].
Qed.
