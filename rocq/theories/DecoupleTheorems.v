(** The code on a spin group and on some of its channels. *)
From Coq Require Import Reals Lra.
From mathcomp Require Import all_ssreflect all_algebra.
From Verif Require Import Cplx RMatrixModel RMatrixSpec RMatrixProofs RMatrixCodeProofs RMatrixObservableProofs KMatrixMore
  DecoupleSpec DecoupleProofs.
Set Implicit Arguments.
Unset Strict Implicit.
Unset Printing Implicit Defensive.
Import GRing.Theory.
Local Open Scope ring_scope.

Section Code.
Variables (b : boundary_option) (E : R) (table : seq resonance) (vs : seq values) (n : nat) (idx : seq nat).
Hypotheses (sz : sized n table) (Hidx : all (fun i => i < n)%N idx) (Hu : uniq idx) (Hs : separate idx table).
Let m := size idx.
Let f (i : 'I_m) : 'I_n.
Proof. by exists (nth 0%N idx i); move/allP: Hidx; apply; apply: mem_nth. Defined.
Let f_inj : injective f.
Proof. by move=> i j /(congr1 val) /= /eqP; rewrite nth_uniq // => /eqP /val_inj. Qed.
Let vs' := only idx vs.
Let table' := [seq only_width idx r | r <- table].

Lemma only_sized : sized m table'.
Proof.
  rewrite /table' => r /List.in_map_iff [x [<- _]]; by rewrite /= size_map.
Qed.
Lemma only_val (i : 'I_m) : val_of vs (f i) = val_of vs' i.
Proof. by rewrite /val_of /vs' /only (nth_map 0%N). Qed.
Lemma only_open r (i : 'I_m) : open_width vs r (f i) = open_width vs' (only_width idx r) i.
Proof. by rewrite /open_width /isclosed only_val /width /= (nth_map 0%N). Qed.
Lemma only_R i j : R_spec n E table vs (f i) (f j) = R_spec m E table' vs' i j.
Proof. by rewrite !mxE big_map; apply: eq_bigr => r _; rewrite !only_open. Qed.
Lemma outside (k : 'I_n) : k \notin codom f -> (k : nat) \notin idx.
Proof.
  apply: contra => Hk; apply/codomP.
  have Hi : (index (k : nat) idx < m)%N by rewrite index_mem.
  by exists (Ordinal Hi); apply: val_inj; rewrite /= nth_index.
Qed.
Lemma only_zero i (k : 'I_n) : k \notin codom f -> R_spec n E table vs (f i) k = 0.
Proof.
  move=> /outside Hk; rewrite mxE; apply: etrans (big_In (G := fun _ => 0) _) _; last by rewrite big1.
  move=> r Hr; have Hi : (f i : nat) \in idx by apply: mem_nth.
  rewrite /open_width /width; case: (Hs Hr Hi Hk) => ->; do 2 case: (isclosed _ _);
    by rewrite ?Rmult_0_l ?Rmult_0_r rcx0 mul0r.
Qed.

Lemma only_call (s s1 : cache n) A (s' : cache m) : rl_call b E table vs s = Some (s1, A) ->
  exists s2 A', rl_call b E table' vs' s' = Some (s2, A').
Proof.
  move=> Hc; have rl := rl_call_is_RL sz Hc.
  have reg : regular E table.
    move=> r Hr; case: (Req_EM_T (rs_energy r) E) => [He|]; [right => Hz | by left].
    by rewrite (rl_call_none b vs s Hr He Hz) in Hc.
  have [ms Em] : exists ms, all_some [seq rmatrix r E | r <- table'] = Some ms.
    apply: all_some_map => r; rewrite /table' => /List.in_map_iff [x [<- Hx]]; apply/rmatrix_some; exact: (reg x Hx).
  rewrite /rl_call Em (code_R _ _ only_sized Em) lmatrix_spec.
  have := part_unit f_inj only_zero (proj1 rl).
  set M := (1%:M - _); set N := (1%:M - _).
  have -> : N = M.
    rewrite /N /M; congr (_ - _ *m _); first by apply/matrixP => i j; rewrite -only_R [RHS]mxE.
    by congr diag_mx; apply/matrixP => i j; rewrite !mxE only_val.
  by move=> ->; do 2 eexists.
Qed.

Section Values.
Variables (s s1 : cache n) (A : 'M[cx]_n) (s' s2 : cache m) (A' : 'M[cx]_m).
Hypotheses (H1 : rl_call b E table vs s = Some (s1, A)) (H2 : rl_call b E table' vs' s' = Some (s2, A')).
Let rl1 := rl_call_is_RL sz H1.
Let rl2 := rl_call_is_RL only_sized H2.
Lemma nowhere i (k : 'I_m) : k \notin codom (@id 'I_m) -> R_spec m E table' vs' i k = 0.
Proof. by rewrite (_ : k \in codom id) //; apply/codomP; exists k. Qed.
Lemma code_U i j : U_spec vs A (f i) (f j) = U_spec vs' A' i j.
Proof. exact: (common_U f_inj (@inj_id _) rl1 rl2 only_val only_R only_zero nowhere). Qed.
Lemma code_zero i (k : 'I_n) : (k : nat) \notin idx -> U_spec vs A (f i) k = 0.
Proof.
  move=> Hk; apply: (common_zero f_inj rl1 only_zero); apply: contra Hk => /codomP [j ->]; exact: mem_nth.
Qed.
Lemma nth_cross p factor (ws : seq values) (B : 'M[cx]_p) t (rl : is_RL b E t ws B) (c j : 'I_p) :
  nth 0%re (crossSections factor ws B c) j =
  (factor * norm2 ((if j == c then cis (v_w (val_of ws c)) else 0) - U_spec ws B c j)%R)%re.
Proof.
  rewrite /crossSections (sigma_code rl) map_cat nth_cat 2!size_map size_enum_ord ltn_ord.
  by rewrite (nth_map 0%re) 1?size_map ?size_enum_ord // (nth_map j) ?size_enum_ord // nth_ord_enum.
Qed.
Lemma last_cross p factor (ws : seq values) (B : 'M[cx]_p) t (rl : is_RL b E t ws B) (c : 'I_p) :
  nth 0%re (crossSections factor ws B c) p = (factor * (1 - \big[Rplus/0]_j norm2 (U_spec ws B c j)))%re.
Proof.
  by rewrite /crossSections (sigma_code rl) (capture_code rl) map_cat nth_cat 2!size_map size_enum_ord ltnn subnn.
Qed.
Lemma code_cross factor (i : 'I_m) (c : 'I_n) : (c : nat) = nth 0%N idx i ->
  (forall j, (j < m)%N -> nth 0%re (crossSections factor vs A c) (nth 0%N idx j) = nth 0%re (crossSections factor vs' A' i) j) /\
  (forall k, (k < n)%N -> k \notin idx -> nth 0%re (crossSections factor vs A c) k = 0%re) /\
  nth 0%re (crossSections factor vs A c) n = nth 0%re (crossSections factor vs' A' i) m.
Proof.
  move=> Hc; have {Hc} -> : c = f i by apply: val_inj.
  split; [|split].
  - move=> j Hj; have := nth_cross factor rl2 i (Ordinal Hj); rewrite /= => ->.
    have := nth_cross factor rl1 (f i) (f (Ordinal Hj)); rewrite /= => ->.
    by rewrite (inj_eq f_inj) code_U only_val.
  - move=> k Hk Hi; have := nth_cross factor rl1 (f i) (Ordinal Hk); rewrite /= => ->.
    rewrite (_ : (Ordinal Hk == f i) = false); last first.
      by apply: contraNF Hi => /eqP /(congr1 val) /= ->; apply: mem_nth.
    rewrite code_zero // subr0 /norm2 /=; ring.
  - rewrite (last_cross factor rl1) (last_cross factor rl2); congr (_ * (1 - _))%re.
    rewrite (big_part f_inj Rplus_comoid) /=; first by apply: eq_bigr => j _; rewrite code_U.
    by move=> k /outside Hk _; rewrite code_zero // /norm2 /=; ring.
Qed.
End Values.
End Code.

Theorem decoupled b E table vs n idx (s s1 : cache n) A (s' : cache (size idx)) :
  sized n table -> all (fun i => i < n)%N idx -> uniq idx -> separate idx table ->
  rl_call b E table vs s = Some (s1, A) ->
  exists s2 A', rl_call b E [seq only_width idx r | r <- table] (only idx vs) s' = Some (s2, A') /\
  forall factor (i : 'I_(size idx)) (c : 'I_n), (c : nat) = nth 0%N idx i ->
  (forall j, (j < size idx)%N ->
     nth 0%re (crossSections factor vs A c) (nth 0%N idx j) = nth 0%re (crossSections factor (only idx vs) A' i) j) /\
  (forall k, (k < n)%N -> k \notin idx -> nth 0%re (crossSections factor vs A c) k = 0%re) /\
  nth 0%re (crossSections factor vs A c) n = nth 0%re (crossSections factor (only idx vs) A' i) (size idx).
Proof.
  move=> sz Hi Hu Hs H1; have [s2 [A' H2]] := only_call sz Hi Hu Hs s' H1.
  exists s2, A'; split=> // factor i c Hc; exact: (code_cross sz Hi Hu Hs H1 H2 factor Hc).
Qed.
