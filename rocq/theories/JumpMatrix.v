(** The group of one J of the older Reich-Moore interface does not jump. *)
From Coq Require Import Reals Lra.
From mathcomp Require Import all_ssreflect all_algebra.
From Verif Require Import Cplx KMatrixModel KMatrixProofs ContinuityProofs.
Set Implicit Arguments.
Unset Strict Implicit.
Unset Printing Implicit Defensive.
Import GRing.Theory.
Local Open Scope ring_scope.

(** At all energies close enough *)
Definition near (x : R) (P : R -> Prop) : Prop := exists a, (0 < a)%re /\ forall y, (Rabs (y - x) < a)%re -> P y.
Lemma near_and x (P Q : R -> Prop) : near x P -> near x Q -> near x (fun e => P e /\ Q e).
Proof.
  move=> [a [a0 Ha]] [b [b0 Hb]]; exists (Rmin a b); split; first exact: Rmin_glb_lt.
  by move=> y Hy; split; [apply: Ha; apply: (Rlt_le_trans _ _ _ Hy (Rmin_l a b)) | apply: Hb; apply: (Rlt_le_trans _ _ _ Hy (Rmin_r a b))].
Qed.
Lemma near_imp x (P Q : R -> Prop) : (forall e, P e -> Q e) -> near x P -> near x Q.
Proof. by move=> H [a [a0 Ha]]; exists a; split=> // y /Ha /H. Qed.
Lemma near_all x A (l : seq A) (P : A -> R -> Prop) : (forall r, List.In r l -> near x (P r)) -> near x (fun e => forall r, List.In r l -> P r e).
Proof.
  elim: l => [|r l IH] H; first by exists 1%re; split; [lra|].
  have [|a [a0 Ha]] := near_and (H r (or_introl (erefl r))) (IH _); first by move=> s Hs; apply: H; right.
  by exists a; split=> // y /Ha [H1 H2] s [<-|/H2].
Qed.
Definition four (f : R -> option (R * R * R * R)) (x : R) : Prop :=
  exists a b c d, continuity_pt a x /\ continuity_pt b x /\ continuity_pt c x /\ continuity_pt d x /\ near x (fun e => f e = Some (a e, b e, c e, d e)).

Lemma ccont_sum_in (rs : seq rm_resonance) (F : rm_resonance -> R -> cx) x : (forall r, List.In r rs -> ccont (F r) x) -> ccont (fun e => \sum_(r <- rs) F r e) x.
Proof.
  elim: rs => [|r l IH] H.
    by apply: (@ccont_ext (fun _ => 0)) => [y|]; [rewrite big_nil | exact: ccont_const].
  apply: (@ccont_ext (fun e => F r e + \sum_(r <- l) F r e)) => [y|]; first by rewrite big_cons.
  apply: ccont_add; first by apply: H; left.
  by apply: IH => s Hs; apply: H; right.
Qed.
Lemma den3_cont r x : continuity_pt (fun e => den3 e r) x.
Proof.
  rewrite /den3; apply: cont_add; last exact: cont_const.
  apply: cont_mul; first exact: cont_const.
  by apply: cont_mul; apply: cont_sub; [exact: cont_const | exact: cont_id | exact: cont_const | exact: cont_id].
Qed.
Lemma cont_inv (f : R -> R) x : continuity_pt f x -> f x <> 0%re -> continuity_pt (fun e => / f e)%re x.
Proof. by move=> H N; exact: continuity_pt_inv. Qed.
Lemma factor3_cont r x : den3 x r <> 0%re -> ccont (fun e => factor3 e r) x.
Proof.
  move=> N; have I := cont_inv (@den3_cont r x) N; apply: ccont_Cx; apply: cont_mul => //; first exact: cont_const.
  by apply: cont_mul; [exact: cont_const | apply: cont_sub; [exact: cont_const | exact: cont_id]].
Qed.

Section Group.
Variables (p phi c s : R -> R) (front : rm_resonance) (rs : seq rm_resonance) (x : R).
Hypothesis Hc : forall r, List.In r rs -> (0 <= rm_capture r)%re.
Hypothesis Hp : continuity_pt (fun e => sqrt (p e)) x.
Hypothesis Hcos : continuity_pt c x.
Hypothesis Hsin : continuity_pt s x.
Hypothesis Hce : forall e, cos (2 * phi e)%re = c e.
Hypothesis Hse : forall e, sin (2 * phi e)%re = s e.
Hypothesis Hf : forall r, List.In r rs -> finite3 x r.
Let g := Rabs (rm_flagged front).
Let K e : 'M[cx]_3 := Kmx e (p e) rs.

Lemma width3_cont r i : continuity_pt (fun e => width3 (sqrt (p e)) r i) x.
Proof. by case: i => [|[|[|i]]] /=; [apply: cont_mul => //; exact: cont_const | exact: cont_const..]. Qed.
Lemma K_cont : mcont K x.
Proof.
  move=> i j; apply: (@ccont_ext (fun e => \sum_(r <- rs) rcx (width3 (sqrt (p e)) r i * width3 (sqrt (p e)) r j)%re * factor3 e r)) => [y|]; first by rewrite mxE.
  apply: ccont_sum_in => r Hr; apply: ccont_mul; first by apply: ccont_rcx; apply: cont_mul; exact: width3_cont.
  by apply: factor3_cont; have [_ [_]] := Hf Hr.
Qed.
Lemma finite_near : near x (fun e => forall r, List.In r rs -> finite3 e r).
Proof.
  apply: near_all => r /Hf [H1 [H2 H3]]; have [a [a0 Ha]] := pos_near (@den3_cont r x) H3.
  by exists a; split=> // y /Ha H; split.
Qed.

(** With fission *)
Let M e : 'M[cx]_3 := 1%:M + K e.
Lemma M_cont : mcont M x.
Proof.
  move=> i j; apply: (@ccont_ext (fun e => (1%:M : 'M[cx]_3) i j + K e i j)) => [y|]; first by rewrite [RHS]mxE.
  by apply: ccont_add; [exact: ccont_const | exact: K_cont].
Qed.
Lemma unit_near : M x \in unitmx -> near x (fun e => M e \in unitmx).
Proof.
  rewrite unitmxE unitfE => /eqP N.
  have D : continuity_pt (fun e => norm2 (\det (M e))) x by apply: cont_norm2; apply: mcont_det; exact: M_cont.
  have N2 : norm2 (\det (M x)) <> 0%re.
    by move=> Z; apply: N; exact: norm2_eq0.
  have [a [a0 Ha]] := pos_near D N2; exists a; split=> // y /Ha H.
  by rewrite unitmxE unitfE; apply/eqP => Z; apply: H; rewrite Z /norm2 /=; ring.
Qed.
Definition U e (i j : 'I_3) : cx := Cx (c e) (- s e)%re * (rcx 2%re * invmx (M e) i j - (1%:M : 'M[cx]_3) i j).
Lemma U_cont i j : M x \in unitmx -> ccont (fun e => U e i j) x.
Proof.
  move=> H; have [a [a0 Ha]] := unit_near H; have I := mcont_inv M_cont a0 Ha.
  apply: ccont_mul; first by apply: ccont_Cx => //; exact: cont_opp.
  by apply: ccont_sub; [apply: ccont_mul; [exact: ccont_const | exact: I] | exact: ccont_const].
Qed.
Lemma solve_matrix e L : to_matrix (copy_lower L) = K e -> M e \in unitmx -> solveRmatrix L (c e) (s e) g =
  Some ((2 * g * (1 - re (U e o0 o0)))%re, (g * norm2 (1 - U e o0 o0)%R)%re, (g * (norm2 (U e o0 o1) + norm2 (U e o0 o2)))%re, g).
Proof.
  move=> HK HM; rewrite /solveRmatrix HK -/(M e) HM !cabs_sq !cabs_mul.
  by rewrite /U !mxE.
Qed.

(** Without *)
Let z e : cx := 1 + K e o0 o0.
Let q e : R := re (z e * conj (z e)).
Definition W e : cx := Cx (c e * (2 * (re (z e) * / q e) - 1) + 2 * (- im (z e) * / q e) * s e)%re (- s e * (2 * (re (z e) * / q e) - 1) + 2 * (- im (z e) * / q e) * c e)%re.
Lemma z_cont : ccont z x.
Proof. by apply: ccont_add; [exact: ccont_const | exact: K_cont]. Qed.
Lemma q_cont : continuity_pt q x.
Proof.
  apply: (@cont_ext (fun e => norm2 (z e))) => [y|]; last by apply: cont_norm2; exact: z_cont.
  by rewrite /q reM /norm2 /=; ring.
Qed.
Lemma W_cont : q x <> 0%re -> ccont W x.
Proof.
  move=> N; have I := cont_inv q_cont N; have [z1 z2] := z_cont.
  have A : continuity_pt (fun e => 2 * (re (z e) * / q e) - 1)%re x.
    by apply: cont_sub; [apply: cont_mul; [exact: cont_const | apply: cont_mul] | exact: cont_const].
  have B : continuity_pt (fun e => 2 * (- im (z e) * / q e))%re x.
    by apply: cont_mul; [exact: cont_const | apply: cont_mul => //; exact: cont_opp].
  by apply: ccont_Cx; apply: cont_add; apply: cont_mul => //; exact: cont_opp.
Qed.
Lemma solve_function e L : L 0%N 0%N = K e o0 o0 -> expands L (phi e) = false -> q e <> 0%re -> solveRfunction L (c e) (s e) g (phi e) =
  Some ((2 * g * (1 - re (W e)))%re, (g * norm2 (1 - W e)%R)%re, 0%re, g).
Proof.
  move=> HL Hx N; rewrite /solveRfunction HL -/(z e) -/(q e) /frecip; case: Req_EM_T => // _ /=; rewrite Hx -/(W e).
  by congr (Some (_, _, _, _)); rewrite /norm2 ?cxE /W /=; ring.
Qed.

Theorem Jgroup_four : rm_Jgroup x (sqrt (p x)) (phi x) front rs <> None -> four (fun e => rm_Jgroup e (sqrt (p e)) (phi e) front rs) x.
Proof.
  have [L0 [b0 S0]] := rm_sum_finite (sqrt (p x)) Hf zero3 false.
  rewrite {1}/rm_Jgroup S0 Hce Hse -/g => V.
  have [_ [B0 _]] := rm_sum_value S0.
  have sums : near x (fun e => exists L, rm_sum rs e (sqrt (p e)) zero3 false = Some (L, b0)).
    apply: near_imp finite_near => e F; have [L [b S]] := rm_sum_finite (sqrt (p e)) F zero3 false.
    exists L; rewrite S; congr (Some (_, _)); have [_ [B _]] := rm_sum_value S.
    by apply/idP/idP => [/B /B0|/B0 /B].
  case: b0 {B0} S0 V sums => S0 V sums.
    have HM : M x \in unitmx.
      by move: V; rewrite /solveRmatrix (copy_value S0) -/(K x) -/(M x); case: (M x \in unitmx).
    exists (fun e => 2 * g * (1 - re (U e o0 o0)))%re, (fun e => g * norm2 (1 - U e o0 o0)%R)%re, (fun e => g * (norm2 (U e o0 o1) + norm2 (U e o0 o2)))%re, (fun _ => g).
    have [u00 _] := U_cont o0 o0 HM.
    split; first by apply: cont_mul; [exact: cont_const | apply: cont_sub; [exact: cont_const | exact: u00]].
    split; first by apply: cont_mul; [exact: cont_const | apply: cont_norm2; apply: ccont_sub; [exact: ccont_const | exact: U_cont]].
    split; first by apply: cont_mul; [exact: cont_const | apply: cont_add; apply: cont_norm2; exact: U_cont].
    split; first exact: cont_const.
    apply: near_imp (near_and (unit_near HM) sums) => e [Me [L S]].
    by rewrite /rm_Jgroup S Hce Hse -/g (solve_matrix (copy_value S) Me).
  have K00 e L b : rm_sum rs e (sqrt (p e)) zero3 false = Some (L, b) -> L 0%N 0%N = K e o0 o0.
    by move=> /copy_value; rewrite /K => <-; rewrite mxE.
  have N : q x <> 0%re.
    move: V; rewrite /solveRfunction (K00 _ _ _ S0) -/(z x) -/(q x) /frecip; by case: Req_EM_T.
  exists (fun e => 2 * g * (1 - re (W e)))%re, (fun e => g * norm2 (1 - W e)%R)%re, (fun _ => 0%re), (fun _ => g).
  have Wc := W_cont N; have [W1 _] := Wc.
  split; first by apply: cont_mul; [exact: cont_const | apply: cont_sub; [exact: cont_const | exact: W1]].
  split; first by apply: cont_mul; [exact: cont_const | apply: cont_norm2; apply: ccont_sub; [exact: ccont_const | exact: Wc]].
  split; first exact: cont_const.
  split; first exact: cont_const.
  apply: near_imp (near_and (pos_near q_cont N) sums) => e [Ne [L S]].
  by rewrite /rm_Jgroup S Hce Hse -/g (solve_function (K00 _ _ _ S) (no_expansion (phi e) Hc S) Ne).
Qed.
End Group.

(** * One level without fission, in real numbers *)
Lemma single_sum r e rp K b : rm_sum [:: r] e rp zero3 false = Some (K, b) -> ~ fissile r ->
  b = false /\ re (K 0%N 0%N) = (width3 rp r 0 * width3 rp r 0 * (rm_capture r * / den3 e r))%re /\
  im (K 0%N 0%N) = (width3 rp r 0 * width3 rp r 0 * (-2 * (rm_energy r - e) * / den3 e r))%re.
Proof.
  move=> /rm_sum_value [_ [B H]] N; split.
    by apply/negP => /B [//|[s [[<-|[]]]]].
  by rewrite (H 0%N 0%N) // /zero3 big_cons big_nil add0r addr0 !cxE /= /factor3 /=; split; ring.
Qed.
Section Single.
Variables (L : matrix3) (c s g phi : R).
Let z1 := (1 + re (L 0%N 0%N))%re.
Let z2 := im (L 0%N 0%N).
Let q := (z1 * z1 + z2 * z2)%re.
Lemma single_q : re ((1 + L 0%N 0%N) * conj (1 + L 0%N 0%N)) = q.
Proof. by rewrite reM /q /z1 /z2 !cxE /=; ring. Qed.
Lemma single_plain : expands L phi = false -> q <> 0%re ->
  exists el, solveRfunction L c s g phi = Some ((2 * g * (1 - (c * (2 * (z1 * / q) - 1) - 2 * (z2 * / q) * s)))%re, el, 0%re, g).
Proof.
  move=> X N; rewrite /solveRfunction single_q /frecip; case: Req_EM_T => // _ /=; rewrite X.
  by eexists; apply: (congr1 (fun t => Some (t, _, 0%re, g))); rewrite /z1 /z2 ?cxE /=; ring.
Qed.
Lemma single_expands : expands L phi = true -> q <> 0%re ->
  exists el, solveRfunction L c s g phi = Some ((2 * g * (2 * / q * (z1 + q + s * z2 + phi * phi * (1 - q))))%re, el, 0%re, g).
Proof.
  move=> X N; rewrite /solveRfunction single_q /frecip; case: Req_EM_T => // _ /=; rewrite X.
  by eexists; apply: (congr1 (fun t => Some (t, _, 0%re, g))); rewrite /z1 /z2 ?cxE /=; ring.
Qed.
Lemma single_test : expands L phi = if Rlt_dec (3 / 10000) (Rabs z1) then false else if Rlt_dec (3 / 10000) (Rabs phi) then false else true.
Proof. by rewrite /expands reD re1. Qed.
End Single.
