(** The loops of RMatrixModel compute the matrices of RMatrixSpec. *)
From Coq Require Import Reals Lra.
From mathcomp Require Import all_ssreflect all_algebra.
From Verif Require Import Cplx RMatrixModel RMatrixSpec RMatrixProofs.
Set Implicit Arguments.
Unset Strict Implicit.
Unset Printing Implicit Defensive.
Import GRing.Theory.
Local Open Scope ring_scope.

Lemma nth_flat (A : Type) (B : Type) (d : A) (e : B) (f : A -> A -> B) (u w : seq A) c j :
  (c < size u)%N -> (j < size w)%N ->
  nth e [seq f x y | x <- u, y <- w] (c * size w + j)%N = f (nth d u c) (nth d w j).
Proof.
  elim: u c => // x u IH [|c] Hc Hj /=.
    by rewrite mul0n add0n nth_cat size_map Hj (nth_map d).
  rewrite nth_cat size_map mulSn -addnA ltnNge leq_addr /= addKn.
  exact: IH.
Qed.

Lemma entry_rmatrix r energy m n c j : size (rs_widths r) = n ->
  rmatrix r energy = Some m -> (c < n)%N -> (j < n)%N ->
  denominator energy r != 0 /\
  entry m c j = rcx (nth 0%re (rs_widths r) c * nth 0%re (rs_widths r) j)%re / denominator energy r.
Proof.
  move=> sz; rewrite /rmatrix /terminator /recip -/(denominator energy r) sz.
  case: eqP => // nz [<-] Hc Hj; split=> //.
  rewrite /entry nth_reshape nth_nseq Hc nth_take // nth_drop.
  have -> : sumn (take c (nseq n n)) = (c * n)%N.
    by rewrite take_nseq ?sumn_nseq ?(ltnW Hc) // mulnC.
  by rewrite -{1}sz (nth_flat 0%re) ?sz.
Qed.

Lemma rmatrix_some r energy : (rs_energy r <> energy \/ rs_eliminated r <> 0%re) <->
  exists m, rmatrix r energy = Some m.
Proof.
  rewrite /rmatrix /terminator /recip; case: eqP => H.
  - split; last by case.
    have E1 := f_equal re H; have E2 := f_equal im H; rewrite /= in E1 E2.
    case=> N; first by case: N; lra.
    by case: N; nra.
  - split; first by move=> _; eexists.
    move=> _; case: (Req_EM_T (rs_energy r) energy) => [E1|]; last by left.
    case: (Req_EM_T (rs_eliminated r) 0) => [E2|]; last by right.
    by case: H; rewrite E1 E2; apply: cx_ext => /=; ring.
Qed.

Lemma all_some_map (A B : Type) (f : A -> option B) (l : seq A) :
  (forall a, List.In a l -> exists b, f a = Some b) -> exists ms, all_some [seq f a | a <- l] = Some ms.
Proof.
  elim: l => [|a l IH] H; first by exists [::].
  have [b E] := H a (or_introl erefl).
  have [ms Em] := IH (fun x Hx => H x (or_intror Hx)).
  by rewrite /= E Em /=; eexists.
Qed.
Lemma all_some_none (A B : Type) (f : A -> option B) (l : seq A) a :
  List.In a l -> f a = None -> all_some [seq f a | a <- l] = None.
Proof.
  elim: l => //= x l IH [-> | H] E; first by rewrite E.
  by rewrite IH //; case: (f x).
Qed.
Lemma all_some_foldl (A B C : Type) (f : A -> option B) (h : C -> B -> C) (h' : C -> A -> C) l ms (z : C) :
  (forall a b c, List.In a l -> f a = Some b -> h c b = h' c a) ->
  all_some [seq f a | a <- l] = Some ms -> foldl h z ms = foldl h' z l.
Proof.
  elim: l ms z => [|a l IH] ms z H /=; first by case=> <-.
  case E: (f a) => [b|] //; case E2: (all_some _) => [bs|] //= [<-] /=.
  rewrite (H a b z) //; last by left.
  by apply: IH E2 => a' b' c Ha; apply: H; right.
Qed.

Section Code.
Variables (n : nat) (b : boundary_option) (energy : R) (table : seq resonance) (vs : seq values).
Notation val_of := (@val_of n vs).
Notation isclosed := (@isclosed n vs).

Lemma accumulate_spec ms (old : 'M[cx]_n) i j :
  sized n table -> all_some [seq rmatrix r energy | r <- table] = Some ms ->
  accumulate ms old i j = \sum_(r <- table) rcx (width r i * width r j)%re / denominator energy r.
Proof.
  move=> sz E; rewrite /accumulate scale0r.
  pose h' := fun (M : 'M[cx]_n) r => \matrix_(i, j) (M i j + rcx (width r i * width r j)%re / denominator energy r).
  rewrite (@all_some_foldl _ _ _ (rmatrix^~ energy) _ h' table ms) //; last first.
    move=> r m M Hr Em; apply/matrixP => c c'; rewrite !mxE; congr (_ + _).
    by have [_ ->] := entry_rmatrix (sz r Hr) Em (ltn_ord c) (ltn_ord c').
  have H (M : 'M[cx]_n) : foldl h' M table i j =
      M i j + \sum_(r <- table) rcx (width r i * width r j)%re / denominator energy r.
    elim: (table) M => [|r l IH] M /=; first by rewrite big_nil addr0.
    by rewrite IH mxE big_cons addrA.
  by rewrite H mxE add0r.
Qed.

Lemma zero_thresholds_spec (M : 'M[cx]_n) i j :
  zero_thresholds vs M i j = if isclosed i || isclosed j then 0 else M i j.
Proof.
  rewrite /zero_thresholds.
  have H (s : seq 'I_n) (M' : 'M[cx]_n) :
    foldl (fun M c => if v_closed (nth no_values vs (val c)) then set_zero M c else M) M' s i j =
    if (i \in s) && isclosed i || (j \in s) && isclosed j then 0 else M' i j.
    elim: s M' => [|c s IH] M' //=.
    rewrite IH !inE -/(val_of c) -/(isclosed c).
    case Ec: (isclosed c).
      rewrite mxE.
      case: (i =P c) => [-> | _]; first by rewrite Ec /= ; case: ifP.
      case: (j =P c) => [-> | _]; last by [].
      by rewrite Ec /= orbT; case: ifP.
    case: (i =P c) => [-> | _]; first by rewrite Ec !andbF /=; case: (j =P c) => [-> | _] //; rewrite Ec !andbF.
    by case: (j =P c) => [-> | _] //; rewrite Ec !andbF.
  by rewrite H !mem_enum.
Qed.

Lemma lmatrix_spec (old : 'rV[cx]_n) : diag_mx (lmatrix b vs old) = L_spec n b vs.
Proof.
  rewrite /L_spec; congr diag_mx.
  apply/rowP => i; rewrite mxE /lmatrix scale0r.
  have H (s : seq 'I_n) (d : 'rV[cx]_n) :
    foldl (fun d i => set_diag d i (lvalue b (nth no_values vs i))) d s 0 i =
    if i \in s then lvalue b (val_of i) else d 0 i.
    elim: s d => [|c s IH] d //=.
    rewrite IH inE mxE; case: (i =P c) => [-> | _] //=; by case: ifP.
  by rewrite H mem_enum /=; case: b.
Qed.

Lemma code_R ms (old : 'M[cx]_n) : sized n table ->
  all_some [seq rmatrix r energy | r <- table] = Some ms ->
  zero_thresholds vs (accumulate ms old) = R_spec n energy table vs.
Proof.
  move=> sz E; apply/matrixP => i j; rewrite zero_thresholds_spec (accumulate_spec _ _ _ sz E) !mxE.
  case: ifP => H.
    rewrite big1 // => r _; rewrite /open_width; case/orP: H => ->.
      by rewrite Rmult_0_l rcx0 mul0r.
    by rewrite Rmult_0_r rcx0 mul0r.
  by apply: eq_bigr => r _; rewrite /open_width; case: (isclosed i) H => //; case: (isclosed j).
Qed.

(** ** Link with the abstract matrices *)
Let tab := in_tuple table.
Let t (k : 'I_(size table)) : cx := (denominator energy (tnth tab k))^-1.
Let g (k : 'I_(size table)) (i : 'I_n) : R := open_width vs (tnth tab k) i.
Let l (i : 'I_n) : cx := lvalue b (val_of i).

Lemma R_spec_core : R_spec n energy table vs = Rm t g.
Proof.
  apply/matrixP => i j; rewrite mxE /Rm summxE big_tnth; apply: eq_bigr => k _.
  by rewrite !mxE big_ord1 !mxE rcxM mulrC.
Qed.
Lemma L_spec_core : L_spec n b vs = Lm l.
Proof. by rewrite /L_spec /Lm; congr diag_mx; apply/rowP => i; rewrite !mxE /l; case: b. Qed.

Lemma t_im k : (0 <= im (t k))%re.
Proof.
  rewrite /t /GRing.inv /= Ropp_involutive /Rdiv.
  apply: Rmult_le_pos; first nra.
  case: (Req_EM_T (norm2 (denominator energy (tnth tab k))) 0) => [-> | H].
    by rewrite Rinv_0; lra.
  apply: Rlt_le; apply: Rinv_0_lt_compat; move: (norm2_ge0 (denominator energy (tnth tab k))); lra.
Qed.

Lemma spec_unit : physical n b vs -> 1%:M - R_spec n energy table vs *m L_spec n b vs \in unitmx.
Proof.
  move=> ph; rewrite R_spec_core L_spec_core.
  apply: Tm_unit; first exact: t_im.
    by move=> i; have [H _] := ph i; rewrite /l; case: b.
  move=> i; have [H0 [H | [H | H]]] := ph i.
  - by left => k; rewrite /g /open_width H.
  - by right; left; rewrite /l; case: b.
  - rewrite /l H /=; case: (Rle_lt_or_eq_dec _ _ H0) => [lt | <-]; first by right; left.
    by right; right.
Qed.

Lemma rl_call_ok (s : cache n) : sized n table -> physical n b vs -> regular energy table ->
  exists s' A, rl_call b energy table vs s = Some (s', A) /\ is_RL b energy table vs A /\
    (forall s2 : cache n, rl_call b energy table vs s2 = Some (s', A)).
Proof.
  move=> sz ph reg.
  have [ms Em] : exists ms, all_some [seq rmatrix r energy | r <- table] = Some ms.
    by apply: all_some_map => r Hr; apply/rmatrix_some/reg.
  have u := spec_unit ph.
  exists (Cache (lmatrix b vs 0) (R_spec n energy table vs)
         (invmx (1%:M - R_spec n energy table vs *m L_spec n b vs) *m R_spec n energy table vs)).
  eexists.
  have H (s2 : cache n) : rl_call b energy table vs s2 =
    Some (Cache (lmatrix b vs 0) (R_spec n energy table vs)
         (invmx (1%:M - R_spec n energy table vs *m L_spec n b vs) *m R_spec n energy table vs),
         invmx (1%:M - R_spec n energy table vs *m L_spec n b vs) *m R_spec n energy table vs).
    rewrite /rl_call Em (code_R _ sz Em) lmatrix_spec u.
    by rewrite {1}/lmatrix scale0r /lmatrix scale0r.
  split; first exact: H; split => //.
  by split => //; rewrite mulKVmx.
Qed.

Lemma rl_call_none (s : cache n) r : List.In r table -> rs_energy r = energy ->
  rs_eliminated r = 0%re -> rl_call b energy table vs s = None.
Proof.
  move=> Hr He Hg; rewrite /rl_call (all_some_none Hr) //.
  case E: (rmatrix r energy) => [m|] //.
  have [_ H] := rmatrix_some r energy.
  by case: (H (ex_intro _ m E)).
Qed.

Lemma rl_call_is_RL (s s' : cache n) A : sized n table ->
  rl_call b energy table vs s = Some (s', A) -> is_RL b energy table vs A.
Proof.
  move=> sz; rewrite /rl_call; case E: (all_some _) => [ms|] //.
  rewrite (code_R _ sz E) lmatrix_spec; case: ifP => // u [_ <-].
  by split => //; rewrite mulKVmx.
Qed.

Lemma is_RL_core (A : 'M[cx]_n) : is_RL b energy table vs A -> Tm t g l \in unitmx /\ A = Am t g l.
Proof.
  rewrite /is_RL R_spec_core L_spec_core -/(Tm t g l) => [[u H]]; split => //.
  by rewrite /Am -H mulKmx.
Qed.

Lemma is_RL_sym (A : 'M[cx]_n) : is_RL b energy table vs A -> A^T = A.
Proof. by move=> /is_RL_core [u ->]; apply: Am_sym. Qed.

Definition loss (k : 'I_(size table)) (c : 'I_n) : R :=
  (im (t k) * norm2 ((invmx (Tm t g l) *m gv g k) c 0%R))%re.
Lemma loss_ge0 k c : (0 <= loss k c)%re.
Proof. by apply: Rmult_le_pos; [exact: t_im | exact: norm2_ge0]. Qed.
Lemma loss_eq0 k c : rs_eliminated (tnth tab k) = 0%re -> loss k c = 0%re.
Proof.
  move=> H; rewrite /loss /t /GRing.inv /= H; rewrite /Rdiv; ring.
Qed.

Lemma is_RL_im (A : 'M[cx]_n) c : is_RL b energy table vs A ->
  im (A c c) = (\big[Rplus/0]_k loss k c +
                \big[Rplus/0]_j (v_P (val_of j) * norm2 (A c j)))%re.
Proof.
  move=> /is_RL_core [u ->]; rewrite Im_A //; congr Rplus.
  by apply: eq_bigr => j _; rewrite /l; case: b.
Qed.
End Code.
