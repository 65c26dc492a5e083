(** One l and J of a Reich-Moore file inside its spin group. *)
From Coq Require Import Reals Lra String.
From mathcomp Require Import all_ssreflect all_algebra.
From Verif Require Import Cplx RMatrixModel RMatrixSpec RMatrixProofs RMatrixCodeProofs RMatrixObservableProofs
  KMatrixModel KMatrixSpec KMatrixProofs KMatrixMore KinematicsModel ChannelModel SpinGroupModel SpinGroupSpec DecoupleProofs.
Set Implicit Arguments.
Unset Strict Implicit.
Unset Printing Implicit Defensive.
Import GRing.Theory.
Local Open Scope ring_scope.

(** Sums over two lists of resonances with the same energies *)
Lemma sum_match (F G : resonance -> cx) rows t :
  List.NoDup (List.map rs_energy t) -> List.NoDup (List.map rs_energy rows) ->
  (forall x, List.In x rows -> exists r, List.In r t /\ rs_energy r = rs_energy x /\ F r = G x) ->
  (forall r, List.In r t -> (exists x, List.In x rows /\ rs_energy r = rs_energy x) \/ F r = 0) ->
  \sum_(r <- t) F r = \sum_(x <- rows) G x.
Proof.
  elim: rows t => [|x rows IH] t N1 N2 H1 H2.
    rewrite big_nil; apply: etrans (big_In (G := fun _ => 0) _) _; last by rewrite big1.
    by move=> r /H2 [[x [[] _]]|].
  have [r [Hr [Er Fr]]] := H1 x (or_introl (erefl _)).
  have [t1 [t2 Et]] := List.in_split _ _ Hr.
  rewrite big_cons -Fr Et (_ : (t1 ++ r :: t2)%list = t1 ++ r :: t2) // big_cat /= big_cons addrCA; congr (_ + _).
  rewrite -big_cat -/((t1 ++ t2)%list); rewrite {}Et in N1 H1 H2 Hr.
  rewrite List.map_app /= in N1; have N1' := List.NoDup_remove_1 _ _ _ N1; have N1'' := List.NoDup_remove_2 _ _ _ N1.
  rewrite -List.map_app in N1' N1''.
  inversion N2 as [|? ? N3 N4]; subst.
  apply: IH => //.
  - move=> y Hy; have [r' [Hr' [Er' Fr']]] := H1 y (or_intror Hy); exists r'; split=> //.
    apply: List.in_or_app; case: (List.in_app_or _ _ _ Hr') => [?|[E'|?]]; [by left | | by right].
    by exfalso; apply: N3; rewrite -Er E' Er'; apply: List.in_map.
  - move=> r' Hr'.
    have Hin : List.In r' (t1 ++ r :: t2)%list.
      by apply: List.in_or_app; case: (List.in_app_or _ _ _ Hr') => ?; [left | right; right].
    case: (H2 r' Hin) => [[y [[<-|Hy] Ey]]|]; [| by left; exists y | by right].
    by exfalso; apply: N1''; rewrite Er -Ey; apply: List.in_map.
Qed.

Section Block.
Variables (n : nat) (E P phi : R) (t rows : seq resonance) (vs : seq values) (A : 'M[cx]_n) (pos which : seq nat).
Notation w r i := (nth 0%re (rs_widths r) i).
Hypotheses (rl : is_RL ShiftFactor E t vs A) (HP : (0 < P)%re)
  (Hpos : all (fun i => i < n)%N pos) (Upos : uniq pos) (Hwhich : all (fun i => i < 3)%N which) (Uwhich : uniq which)
  (Hsize : size which = size pos).
Hypothesis Hv : forall i, (i < size pos)%N -> nth no_values vs (nth 0%N pos i) = nth no_values (three_channels P phi) (nth 0%N which i).
Hypotheses (N1 : List.NoDup (List.map rs_energy t)) (N2 : List.NoDup (List.map rs_energy rows)).
Hypothesis M1 : forall x, List.In x rows -> exists r, List.In r t /\ rs_energy r = rs_energy x /\
  (rs_eliminated r * rs_eliminated r = rs_eliminated x * rs_eliminated x)%re /\
  forall i, (i < size pos)%N -> w r (nth 0%N pos i) = w x (nth 0%N which i).
Hypothesis M2 : forall r, List.In r t -> (exists x, List.In x rows /\ rs_energy r = rs_energy x) \/
  forall i, (i < size pos)%N -> w r (nth 0%N pos i) = 0%re.
Hypothesis M3 : forall r k, List.In r t -> (k < n)%N -> k \notin pos ->
  (forall i, (i < size pos)%N -> w r (nth 0%N pos i) = 0%re) \/ w r k = 0%re.
Hypothesis M4 : forall x k, List.In x rows -> (k < 3)%N -> k \notin which -> w x k = 0%re.
Let m := size pos.
Let f1 (i : 'I_m) : 'I_n.
Proof. by exists (nth 0%N pos i); move/allP: Hpos; apply; apply: mem_nth. Defined.
Let f2 (i : 'I_m) : 'I_3.
Proof. by exists (nth 0%N which i); move/allP: Hwhich; apply; apply: mem_nth; rewrite Hsize. Defined.
Let I1 : injective f1.
Proof. by move=> i j /(congr1 val) /= /eqP; rewrite nth_uniq // => /eqP /val_inj. Qed.
Let I2 : injective f2.
Proof. by move=> i j /(congr1 val) /= /eqP; rewrite nth_uniq ?Hsize // => /eqP /val_inj. Qed.
Let vs3 := three_channels P phi.

Lemma outside_pos (k : 'I_n) : k \notin codom f1 -> (k : nat) \notin pos.
Proof.
  apply: contra => Hk; apply/codomP.
  have Hi : (index (k : nat) pos < m)%N by rewrite index_mem.
  by exists (Ordinal Hi); apply: val_inj; rewrite /= nth_index.
Qed.
Lemma outside_which (k : 'I_3) : k \notin codom f2 -> (k : nat) \notin which.
Proof.
  apply: contra => Hk; apply/codomP.
  have Hi : (index (k : nat) which < m)%N by rewrite /m -Hsize index_mem.
  by exists (Ordinal Hi); apply: val_inj; rewrite /= nth_index.
Qed.
Lemma block_val i : val_of vs (f1 i) = val_of vs3 (f2 i).
Proof. exact: Hv. Qed.
Lemma three_open (k : 'I_3) : isclosed vs3 k = false.
Proof. by case: (ord3 k) => [->|[->|->]]. Qed.
Lemma open1 r i : open_width vs r (f1 i) = w r (nth 0%N pos i).
Proof. by rewrite /open_width /isclosed block_val -/(isclosed _ _) three_open. Qed.
Lemma open2 r (k : 'I_3) : open_width vs3 r k = w r k.
Proof. by rewrite /open_width three_open. Qed.
Lemma block_R i j : R_spec n E t vs (f1 i) (f1 j) = R_spec 3 E rows vs3 (f2 i) (f2 j).
Proof.
  rewrite !mxE; apply: sum_match => //.
  - move=> x /M1 [r [Hr [Er [El Hw]]]]; exists r; split=> //; split=> //.
    by rewrite !open1 !open2 /= !Hw // /denominator Er El.
  - by move=> r /M2 [|H]; [left | right; rewrite !open1 !H // Rmult_0_l rcx0 mul0r].
Qed.
Lemma block_Z1 i (k : 'I_n) : k \notin codom f1 -> R_spec n E t vs (f1 i) k = 0.
Proof.
  move=> /outside_pos Hk; rewrite mxE; apply: etrans (big_In (G := fun _ => 0) _) _; last by rewrite big1.
  move=> r Hr; rewrite open1; case: (M3 Hr (ltn_ord k) Hk) => [->|H] //; first by rewrite Rmult_0_l rcx0 mul0r.
  by rewrite /open_width /width H; case: (isclosed _ _); rewrite Rmult_0_r rcx0 mul0r.
Qed.
Lemma block_Z2 i (k : 'I_3) : k \notin codom f2 -> R_spec 3 E rows vs3 (f2 i) k = 0.
Proof.
  move=> /outside_which Hk; rewrite mxE; apply: etrans (big_In (G := fun _ => 0) _) _; last by rewrite big1.
  by move=> r Hr; rewrite (open2 r k) (M4 Hr (ltn_ord k) Hk) Rmult_0_r rcx0 mul0r.
Qed.
Let rl3 : is_RL ShiftFactor E rows vs3 (RL3 E P phi rows) := RL3_exists E phi rows HP.
Lemma block_U i j : U_spec vs A (f1 i) (f1 j) = U3 E P phi rows (f2 i) (f2 j).
Proof. exact: (common_U I1 I2 rl rl3 block_val block_R block_Z1 block_Z2). Qed.
Lemma block_zero i k : k \notin codom f1 -> U_spec vs A (f1 i) k = 0.
Proof. exact: (common_zero I1 rl block_Z1). Qed.
Lemma block_zero3 i k : k \notin codom f2 -> U3 E P phi rows (f2 i) k = 0.
Proof. exact: (common_zero I2 rl3 block_Z2). Qed.
Lemma norm2_0 : norm2 0 = 0%re.
Proof. rewrite /norm2 /=; ring. Qed.
Lemma block_sum (p1 : pred 'I_n) (p2 : pred 'I_3) i : (forall j, p1 (f1 j) = p2 (f2 j)) ->
  \big[Rplus/0%re]_(j | p1 j) norm2 (U_spec vs A (f1 i) j) = \big[Rplus/0%re]_(j | p2 j) norm2 (U3 E P phi rows (f2 i) j).
Proof.
  move=> H; rewrite (big_part I1 Rplus_comoid) /=; last by move=> k Hk _; rewrite block_zero // norm2_0.
  rewrite [RHS](big_part I2 Rplus_comoid) /=; last by move=> k Hk _; rewrite block_zero3 // norm2_0.
  by apply: eq_big => j; rewrite ?H // block_U.
Qed.

(** The elastic channel comes first in both. *)
Variable c : 'I_n.
Hypotheses (Hc : exists pos', pos = (c : nat) :: pos') (Hw0 : exists which', which = 0%N :: which').
Lemma first_exists : exists i, f1 i = c /\ f2 i = ord0.
Proof.
  have [p' Ep] := Hc; have [w' Ew] := Hw0; have Hm : (0 < m)%N by rewrite /m Ep.
  by exists (Ordinal Hm); split; apply: val_inj; rewrite /= ?Ep ?Ew.
Qed.
Lemma first_elastic : norm2 (1 - U_spec vs A c c) = J_elastic E P phi rows.
Proof. by have [i [E1 E2]] := first_exists; rewrite /J_elastic -{1 2}E1 block_U E2. Qed.
Lemma first_capture : (1 - \big[Rplus/0]_j norm2 (U_spec vs A c j))%re = J_capture E P phi rows.
Proof.
  have [i [E1 E2]] := first_exists; rewrite /J_capture -E1 -E2; congr (1 - _)%re; exact: block_sum.
Qed.
Lemma first_fission (p : pred 'I_n) : (forall j : 'I_n, (j : nat) \in pos -> p j = (j != c)) ->
  \big[Rplus/0%re]_(j | p j) norm2 (U_spec vs A c j) = J_fission E P phi rows.
Proof.
  move=> Hp; have [i [E1 E2]] := first_exists; rewrite -E1 (block_sum (p2 := fun j => j != ord0)); last first.
    by move=> j; rewrite Hp ?mem_nth // -E1 -E2 (inj_eq I1) (inj_eq I2).
  rewrite E2 /J_fission inord1_o1 inord2_o2 ord0_o0 big_mkcond /= sum3 /=; ring.
Qed.
Lemma first_other (k : 'I_n) : (k : nat) \notin pos -> U_spec vs A c k = 0.
Proof.
  move=> Hk; have [i [<- _]] := first_exists; apply: block_zero.
  by apply: contra Hk => /codomP [j ->]; apply: mem_nth.
Qed.
End Block.

(** The reactions that the channels lead to *)
Section Inner.
Variables (g : group) (E P phi : R) (t rows : seq resonance) (vs : seq values) (A : 'M[cx]_(gsize g)) (pos which : seq nat)
  (c : 'I_(gsize g)) (kE kF : reactionID).
Notation w r i := (nth 0%re (rs_widths r) i).
Notation kC := (capture_id g).
(** what NewerBlock.Block asks for *)
Record placed : Prop := mkPlaced
  { pl_rl : is_RL ShiftFactor E t vs A; pl_P : (0 < P)%re;
    pl_pos : all (fun i => i < gsize g)%N pos; pl_upos : uniq pos; pl_which : all (fun i => i < 3)%N which; pl_uwhich : uniq which;
    pl_size : size which = size pos;
    pl_values : forall i, (i < size pos)%N -> nth no_values vs (nth 0%N pos i) = nth no_values (three_channels P phi) (nth 0%N which i);
    pl_N1 : List.NoDup (List.map rs_energy t); pl_N2 : List.NoDup (List.map rs_energy rows);
    pl_M1 : forall x, List.In x rows -> exists r, List.In r t /\ rs_energy r = rs_energy x /\
      (rs_eliminated r * rs_eliminated r = rs_eliminated x * rs_eliminated x)%re /\
      forall i, (i < size pos)%N -> w r (nth 0%N pos i) = w x (nth 0%N which i);
    pl_M2 : forall r, List.In r t -> (exists x, List.In x rows /\ rs_energy r = rs_energy x) \/
      forall i, (i < size pos)%N -> w r (nth 0%N pos i) = 0%re;
    pl_M3 : forall r k, List.In r t -> (k < gsize g)%N -> k \notin pos ->
      (forall i, (i < size pos)%N -> w r (nth 0%N pos i) = 0%re) \/ w r k = 0%re;
    pl_M4 : forall x k, List.In x rows -> (k < 3)%N -> k \notin which -> w x k = 0%re;
    pl_c : exists pos', pos = (c : nat) :: pos'; pl_0 : exists which', which = 0%N :: which';
    (** the elastic channel, the other channels of the block, all channels *)
    pl_elastic : c_reaction (chan c) = kE;
    pl_fission : forall j : 'I_(gsize g), (j : nat) \in pos -> j != c -> c_reaction (chan j) = kF;
    pl_keys : kE <> kF /\ kE <> kC /\ kF <> kC;
    pl_capture : forall j : 'I_(gsize g), c_reaction (chan j) <> kC }.
Definition inner (k : reactionID) : R :=
  (\big[Rplus/0]_(j | c_reaction (chan j) == k)
         norm2 ((if j == c then cis (v_w (val_of vs c)) else 0%R) - U_spec vs A c j)%R
      + (if k == kC then 1 - \big[Rplus/0]_j norm2 (U_spec vs A c j) else 0))%re.

Lemma inner_values : placed ->
  inner kE = J_elastic E P phi rows /\ inner kF = J_fission E P phi rows /\ inner kC = J_capture E P phi rows.
Proof.
  case=> rl HP H1 H2 H3 H4 H5 Hv N1 N2 M1 M2 M3 M4 Hc H0 RE RF [K1 [K2 K3]] RC.
  have W : v_w (val_of vs c) = 0%re.
    have [p' Ep] := Hc; have [w' Ew] := H0; have := Hv 0%N; rewrite Ep Ew /= => H.
    by rewrite /val_of H.
  have Hin : (c : nat) \in pos by have [p' ->] := Hc; rewrite inE eqxx.
  rewrite /inner W cis0 !eqxx; split; [|split].
  - rewrite (_ : (kE == kC) = false) ?Rplus_0_r; last by apply/eqP.
    rewrite (bigD1 c) /=; last by rewrite RE.
    rewrite eqxx big1 ?Rplus_0_r; last first.
      move=> j /andP [/eqP Rj Hj]; rewrite (negbTE Hj).
      rewrite (first_other rl H1 H2 H3 H5 Hv M3 Hc H0) ?subr0 ?norm2_0 //.
      by apply/negP => Hp; apply: K1; rewrite -Rj; apply: RF.
    exact: (first_elastic rl HP H1 H2 H3 H4 H5 Hv N1 N2 M1 M2 M3 M4 Hc H0).
  - rewrite (_ : (kF == kC) = false) ?Rplus_0_r; last by apply/eqP.
    rewrite (eq_bigr (fun j => norm2 (U_spec vs A c j))); last first.
      by move=> j /eqP Rj; rewrite (_ : (j == c) = false) ?sub0r ?norm2N //; apply/eqP => Ej; apply: K1; rewrite -RE -Rj Ej.
    apply: (first_fission rl HP H1 H2 H3 H4 H5 Hv N1 N2 M1 M2 M3 M4 Hc H0) => j Hj.
    case: (altP (j =P c)) => [->|Ne]; first by rewrite RE; apply/eqP.
    by rewrite (RF _ Hj Ne) eqxx.
  - rewrite big1 ?Rplus_0_l; last by move=> j /eqP /RC.
    exact: (first_capture rl HP H1 H2 H3 H4 H5 Hv N1 N2 M1 M2 M3 M4 Hc H0).
Qed.
End Inner.
