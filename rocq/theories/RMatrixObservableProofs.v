(** Cross sections and T matrix computed from R_L. *)
From Coq Require Import Reals Lra.
From mathcomp Require Import all_ssreflect all_algebra.
From Verif Require Import Cplx RMatrixModel RMatrixSpec RMatrixProofs RMatrixCodeProofs.
Set Implicit Arguments.
Unset Strict Implicit.
Unset Printing Implicit Defensive.
Import GRing.Theory.
Local Open Scope ring_scope.

Lemma foldl_minus (l : seq R) x : foldl Rminus x l = (x - \big[Rplus/0]_(y <- l) y)%re.
Proof.
  elim: l x => [|y l IH] x /=; first by rewrite big_nil; ring.
  by rewrite IH big_cons; ring.
Qed.

Section Obs.
Variables (n : nat) (b : boundary_option) (energy : R) (table : seq resonance) (vs : seq values).
Notation val_of := (@val_of n vs).
Notation isclosed := (@isclosed n vs).
Notation RL := (is_RL b energy table vs).
Variable (A : 'M[cx]_n).

Lemma T_entry i j : T_spec vs A i j = rcx (sqrtP vs i) * A i j * rcx (sqrtP vs j).
Proof. by rewrite /T_spec /sqrtP_mx mul_diag_mx mul_mx_diag !mxE. Qed.
Lemma U_entry i j : U_spec vs A i j =
  omega vs i * ((if j == i then 1 else 0) + (ci + ci) * T_spec vs A i j) * omega vs j.
Proof.
  rewrite /U_spec; set T := T_spec vs A; rewrite /omega_mx mul_diag_mx mul_mx_diag !mxE.
  by rewrite eq_sym; case: eqP.
Qed.

Hypothesis rl : RL A.

Lemma A_sym i j : A i j = A j i.
Proof. by rewrite -{2}(is_RL_sym rl) mxE. Qed.
Lemma T_sym : (T_spec vs A)^T = T_spec vs A.
Proof. by apply/matrixP => i j; rewrite mxE !T_entry (A_sym j i); apply: cx_ext; rewrite !cxE /=; ring. Qed.
Lemma U_sym i j : U_spec vs A i j = U_spec vs A j i.
Proof.
  have H : T_spec vs A j i = T_spec vs A i j by rewrite -{1}T_sym mxE.
  rewrite !U_entry H (eq_sym i j); set d := (_ + _).
  by apply: cx_ext; rewrite !cxE; ring.
Qed.
Lemma u_size c : size (uElements vs A c) = n.
Proof. by rewrite size_map size_enum_ord. Qed.
Lemma two_i : Cx 0%re 2%re = ci + ci.
Proof. by apply: cx_ext; rewrite cxE /=; ring. Qed.
Lemma u_elements c : uElements vs A c = [seq U_spec vs A c j | j <- enum 'I_n].
Proof.
  apply: eq_map => j; rewrite U_entry T_entry two_i /data (A_sym j c); congr (_ * (_ + _) * _).
  by rewrite !mulrA.
Qed.
Lemma sigma_code c : sigma vs A c =
  [seq norm2 ((if j == c then cis (v_w (val_of c)) else 0) - U_spec vs A c j) | j <- enum 'I_n].
Proof.
  rewrite /sigma u_elements; elim: (enum 'I_n) => //= j s IH.
  by rewrite IH.
Qed.
Lemma capture_code c : capture vs A c = (1 - \big[Rplus/0]_j norm2 (U_spec vs A c j))%re.
Proof. by rewrite /capture foldl_minus u_elements -map_comp big_map big_enum. Qed.

Hypothesis P_ge0 : forall i : 'I_n, (0 <= v_P (val_of i))%re.

Lemma sqrtP2 (i : 'I_n) : (sqrtP vs i * sqrtP vs i = v_P (val_of i))%re.
Proof. by apply: sqrt_sqrt; apply: P_ge0. Qed.

Lemma norm2_omega i : norm2 (omega vs i) = 1%re.
Proof. exact: norm2_cis. Qed.

Lemma norm2_T i j : norm2 (T_spec vs A i j) = (v_P (val_of i) * v_P (val_of j) * norm2 (A i j))%re.
Proof. rewrite T_entry !norm2M !norm2_rcx !sqrtP2; ring. Qed.

Lemma row_norm c : (\big[Rplus/0]_j norm2 (U_spec vs A c j) =
  1 - 4 * v_P (val_of c) * \big[Rplus/0]_k @loss n b energy table vs k c)%re.
Proof.
  have E j : norm2 (U_spec vs A c j) =
    ((if j == c then 1 - 4 * v_P (val_of c) * im (A c c) else 0)
     + 4 * v_P (val_of c) * (v_P (val_of j) * norm2 (A c j)))%re.
    have -> : (4 * v_P (val_of c) * (v_P (val_of j) * norm2 (A c j)) = 4 * norm2 (T_spec vs A c j))%re.
      by rewrite norm2_T; ring.
    rewrite U_entry !norm2M !norm2_omega; case: eqP => [-> | _].
      have -> : (4 * v_P (val_of c) * im (A c c))%re = (4 * im (T_spec vs A c c))%re.
        rewrite T_entry !cxE /= -sqrtP2; ring.
      rewrite /norm2 !cxE /=; ring.
    by rewrite /norm2 !cxE /=; ring.
  rewrite (eq_bigr _ (fun j _ => E j)) big_split /= -big_mkcond /= big_pred1_eq.
  rewrite -big_distrr /= (is_RL_im c rl).
  set S1 := (\big[Rplus/0]_(k < size table) loss b energy vs k c)%re.
  set S2 := (\big[Rplus/0]_(j < n) (v_P (val_of j) * norm2 (A c j)))%re.
  ring.
Qed.

Lemma capture_loss c : capture vs A c = (4 * v_P (val_of c) * \big[Rplus/0]_k @loss n b energy table vs k c)%re.
Proof. rewrite capture_code row_norm; ring. Qed.

Lemma capture_ge0 c : (0 <= capture vs A c)%re.
Proof.
  rewrite capture_loss; apply: Rmult_le_pos; first by move: (P_ge0 c); lra.
  by apply: Rsum_ge0 => k _; apply: loss_ge0.
Qed.
Lemma capture_zero c : (forall r, List.In r table -> rs_eliminated r = 0%re) -> capture vs A c = 0%re.
Proof.
  move=> H; rewrite capture_loss big1; first by ring.
  move=> k _; apply: loss_eq0; apply: H.
  rewrite (tnth_nth (Resonance 0%re [::] 0%re)).
  have := ltn_ord k; rewrite -{1}[size table]/(size (in_tuple table)).
  move: {k} (val k); rewrite /=; elim: table => //= r l IH [|i] H; first by left.
  by right; apply: IH.
Qed.
Lemma U_le1 c j : (norm2 (U_spec vs A c j) <= 1)%re.
Proof.
  have H : (\big[Rplus/0]_j norm2 (U_spec vs A c j) <= 1)%re.
    by move: (capture_ge0 c); rewrite capture_code; lra.
  move: H; rewrite (bigD1 j) //=; set S := (\big[Rplus/0]_(i < n | i != j) _)%re.
  have : (0 <= S)%re by apply: Rsum_ge0 => i _; exact: norm2_ge0.
  lra.
Qed.

Lemma total_code c : total_of (sigma vs A c ++ [:: capture vs A c]) =
  (2 - 2 * re (conj (cis (v_w (val_of c))) * U_spec vs A c c)%R)%re.
Proof.
  rewrite /total_of big_cat /= big_seq1 sigma_code big_map big_enum /= capture_code.
  have E j : norm2 ((if j == c then cis (v_w (val_of c)) else 0) - U_spec vs A c j) =
    ((if j == c then 1 - 2 * re (conj (cis (v_w (val_of c))) * U_spec vs A c c)%R else 0)
      + norm2 (U_spec vs A c j))%re.
    case: eqP => [-> | _]; last by rewrite /norm2 !cxE; ring.
    by move: (norm2_cis (v_w (val_of c))); rewrite /norm2 !cxE /=; lra.
  rewrite (eq_bigr _ (fun j _ => E j)) big_split /= -big_mkcond /= big_pred1_eq.
  set S := (\big[Rplus/0]_(j < n) norm2 (U_spec vs A c j))%re; ring.
Qed.
End Obs.

(** ** Closed channels *)
Section Closed.
Variables (n : nat) (b : boundary_option) (energy : R) (table : seq resonance) (vs : seq values).
Lemma closed_row (A : 'M[cx]_n) i j : is_RL b energy table vs A ->
  isclosed vs i || isclosed vs j -> A i j = 0.
Proof.
  move=> H cl.
  have Z i' j' : isclosed vs j' -> A i' j' = 0.
    move=> cj; have [u E] := H.
    have -> : A = invmx (1%:M - R_spec n energy table vs *m L_spec n b vs) *m R_spec n energy table vs.
      by rewrite -{2}E mulKmx.
    rewrite mxE big1 // => k _; rewrite !mxE big1 ?mulr0 // => r _.
    by rewrite /open_width cj Rmult_0_r rcx0 mul0r.
  case/orP: cl => cl; last exact: Z.
  by rewrite (A_sym H) Z.
Qed.

Notation mask := (mask_closed vs).
Lemma nth_open_all i : nth no_values [seq open_all v | v <- vs] i = open_all (nth no_values vs i).
Proof.
  case: (ltnP i (size vs)) => H; first by rewrite (nth_map no_values).
  by rewrite !nth_default ?size_map.
Qed.
Lemma R_mask : sized n table ->
  R_spec n energy [seq mask r | r <- table] [seq open_all v | v <- vs] = R_spec n energy table vs.
Proof.
  move=> sz; apply/matrixP => i j; rewrite !mxE big_map.
  elim: table sz => [|r l IH] sz; first by rewrite !big_nil.
  rewrite !big_cons IH; last by move=> r' Hr; apply: sz; right.
  congr (_ + _); rewrite /denominator /=; congr (rcx _ / _).
  have E (k : 'I_n) : open_width [seq open_all v | v <- vs] (mask r) k = open_width vs r k :> R.
    move: k => k; rewrite /open_width /isclosed /val_of nth_open_all /= /width /= .
    have szr : size (rs_widths r) = n := sz r (or_introl erefl).
    have kn : (k < n)%N by exact: ltn_ord.
    by rewrite szr (nth_map 0%N) ?size_iota // nth_iota.
  by rewrite !E.
Qed.
Lemma L_mask : L_spec n b [seq open_all v | v <- vs] = L_spec n b vs.
Proof.
  by congr diag_mx; apply/rowP => i; rewrite !mxE /val_of nth_open_all.
Qed.
Lemma closed_mask (A : 'M[cx]_n) : sized n table ->
  is_RL b energy [seq mask r | r <- table] [seq open_all v | v <- vs] A <-> is_RL b energy table vs A.
Proof. by move=> sz; rewrite /is_RL R_mask // L_mask. Qed.
End Closed.

(** ** No resonances *)
Lemma empty_RL n b energy vs (A : 'M[cx]_n) : is_RL b energy [::] vs A -> A = 0.
Proof.
  case; have -> : R_spec n energy [::] vs = 0 by apply/matrixP => i j; rewrite !mxE big_nil.
  by rewrite mul0mx subr0 mul1mx.
Qed.
Lemma U_zero n vs (c j : 'I_n) : U_spec vs 0 c j =
  if j == c then cis (2 * (v_w (val_of vs c) - v_phi (val_of vs c)))%re else 0.
Proof.
  rewrite U_entry T_entry mxE mulr0 mul0r mulr0 addr0; case: eqP => [-> | _]; last by rewrite mulr0 mul0r.
  rewrite mulr1 /omega -cisD; congr cis; rewrite /val_of; ring.
Qed.
Lemma dist_cis a c : norm2 (cis a - cis c) = (4 * (sin ((a - c) / 2) * sin ((a - c) / 2)))%re.
Proof.
  rewrite /norm2 !cxE /=.
  have E : (cos (a - c) = 1 - 2 * (sin ((a - c) / 2) * sin ((a - c) / 2)))%re.
    have -> : (cos (a - c) = cos (2 * ((a - c) / 2)))%re by congr cos; field.
    rewrite cos_2a_sin; ring.
  have F := cos_minus a c.
  move: (sin2_cos2 a) (sin2_cos2 c); rewrite /Rsqr; nra.
Qed.

(** ** Unitarity as a matrix equation *)
Section Unitary.
Variables (n : nat) (b : boundary_option) (energy : R) (table : seq resonance) (vs : seq values).
Variable (A : 'M[cx]_n).
Hypothesis rl : is_RL b energy table vs A.
Hypothesis P_ge0 : forall i : 'I_n, (0 <= v_P (val_of vs i))%re.

Lemma U_row_dot c d :
  (U_spec vs A *m dag (U_spec vs A)) c d =
  omega vs c * conj (omega vs d) *
  ((if d == c then 1 else 0) + rcx (sqrtP vs c) * rcx (sqrtP vs d) *
     ((ci + ci) * (A c d - conj (A d c)) + rcx 4%re * \sum_j rcx (v_P (val_of vs j)) * (A c j * conj (A d j)))).
Proof.
  have E j : U_spec vs A c j * conj (U_spec vs A d j) =
    omega vs c * conj (omega vs d) *
    ((if j == c then (if j == d then 1 else 0) else 0)
     + (if j == c then conj ((ci + ci) * T_spec vs A d j) else 0)
     + (if j == d then (ci + ci) * T_spec vs A c j else 0)
     + rcx 4%re * rcx (sqrtP vs c) * rcx (sqrtP vs d) * (rcx (v_P (val_of vs j)) * (A c j * conj (A d j)))).
    rewrite !U_entry !rmorphM rmorphD /=.
    have O : omega vs j * conj (omega vs j) = 1 by rewrite mul_conj norm2_omega rcx1.
    set X := ((if j == c then 1 else 0) + _); set Y := (conj (if j == d then 1 else 0) + _).
    have -> : omega vs c * X * omega vs j * (conj (omega vs d) * Y * conj (omega vs j)) =
              omega vs c * conj (omega vs d) * (X * Y) * (omega vs j * conj (omega vs j)).
      by apply: cx_ext; rewrite !cxE /=; ring.
    rewrite O mulr1; congr (_ * _); rewrite /X /Y.
    have -> : rcx (v_P (val_of vs j)) = rcx (sqrtP vs j) * rcx (sqrtP vs j) by rewrite -rcxM sqrtP2.
    rewrite !T_entry; set T1 := A c j; set T2 := A d j.
    by case: eqP => _; case: eqP => _; rewrite ?rmorph1 ?rmorph0 ?rmorphM /=; apply: cx_ext; rewrite !cxE /=; ring.
  rewrite mxE (eq_bigr _ (fun j _ => etrans (congr1 _ (dagE _ _ _)) (E j))) -big_distrr /=; congr (_ * _).
  rewrite !big_split /= -!big_mkcond /= !big_pred1_eq -big_distrr /= eq_sym -!addrA; congr (_ + _).
  rewrite !T_entry !rmorphM rmorphD /= !mulrDr.
  set S := \sum_j _; set a := A c d; set e := A d c.
  apply: cx_ext; rewrite !cxE /=; ring.
Qed.

Lemma U_unitary : (forall r, List.In r table -> rs_eliminated r = 0%re) ->
  U_spec vs A *m dag (U_spec vs A) = 1%:M.
Proof.
  move=> H.
  have dR : dag (R_spec n energy table vs) = R_spec n energy table vs.
    apply/matrixP => i j; rewrite !mxE rmorph_sum /=.
    elim: table H => [|r l IH] H; first by rewrite !big_nil.
    rewrite !big_cons IH; last by move=> r' Hr; apply: H; right.
    congr (_ + _); rewrite rmorphM /= conj_rcx Rmult_comm; congr (_ * _).
    have Hr := H r (or_introl erefl).
    by rewrite /GRing.inv /=; apply: cx_ext; rewrite /= /norm2 /= ?Hr /Rdiv; ring.
  have [u EA] := rl.
  have T : A - dag A = A *m (L_spec n b vs - dag (L_spec n b vs)) *m dag A.
    have [u' ->] := is_RL_core rl.
    rewrite Am_dag // -R_spec_core dR subrr mulmx0 mul0mx add0r.
    by rewrite -!L_spec_core.
  apply/matrixP => c d; rewrite U_row_dot.
  have -> : A c d - conj (A d c) = (ci + ci) * \sum_j rcx (v_P (val_of vs j)) * (A c j * conj (A d j)).
    have -> : A c d - conj (A d c) = (A - dag A) c d by rewrite !mxE.
    rewrite T big_distrr /=.
    have -> : L_spec n b vs - dag (L_spec n b vs) = diag_mx (\row_i ((ci + ci) * rcx (v_P (val_of vs i)))).
      apply/matrixP => i j; rewrite !mxE eq_sym; case: eqP => [-> | _].
        by rewrite ?eqxx !mulr1n; apply: cx_ext; rewrite !cxE /=; ring.
      by rewrite !mulr0n; apply: cx_ext; rewrite !cxE /=; ring.
    rewrite mul_mx_diag mxE; apply: eq_bigr => j _; rewrite !mxE.
    by apply: cx_ext; rewrite !cxE /=; ring.
  set S := \sum_j _.
  have -> : (ci + ci) * ((ci + ci) * S) + rcx 4%re * S = 0 by apply: cx_ext; rewrite !cxE /=; ring.
  rewrite mulr0 addr0 !mxE eq_sym; case: eqP => [-> | _]; last by rewrite mulr0.
  by rewrite mulr1 mul_conj norm2_omega.
Qed.
End Unitary.

(** ** Maps *)
Section MapLemmas.
Variable (K : eqType).
Lemma absent_sum (kvs : seq (K * R)) k : k \notin [seq kv.1 | kv <- kvs] ->
  \big[Rplus/0%re]_(kv <- kvs | kv.1 == k) kv.2 = 0%re.
Proof.
  elim: kvs => [|kv kvs IH]; first by rewrite big_nil.
  by rewrite /= inE negb_or big_cons eq_sym => /andP [/negbTE -> /IH].
Qed.
Lemma foldl_map_add (kvs : seq (K * R)) (m : K -> option R) k :
  foldl (@map_add K) m kvs k =
  if k \in [seq kv.1 | kv <- kvs]
  then Some (odflt 0%re (m k) + \big[Rplus/0%re]_(kv <- kvs | kv.1 == k) kv.2)%re else m k.
Proof.
  elim: kvs m => [|[key v] kvs IH] m //=.
  rewrite IH inE big_cons /= /map_add /map_set /=.
  case: (k =P key) => [-> | ne] /=.
    rewrite eqxx; case: ifP => [_ | H]; first by congr Some; ring.
    by rewrite absent_sum ?H // Rplus_0_r.
  by rewrite [key == k]eq_sym; case: eqP.
Qed.
Lemma map_add_foldl_cat (m : K -> option R) l1 l2 :
  foldl (@map_add K) m (l1 ++ l2) = foldl (@map_add K) (foldl (@map_add K) m l1) l2.
Proof. exact: foldl_cat. Qed.
Lemma foldl_map_add_perm (l1 l2 : seq (K * R)) (m : K -> option R) k :
  (forall k, \big[Rplus/0%re]_(kv <- l1 | kv.1 == k) kv.2 = \big[Rplus/0%re]_(kv <- l2 | kv.1 == k) kv.2) ->
  [seq kv.1 | kv <- l1] =i [seq kv.1 | kv <- l2] ->
  foldl (@map_add K) m l1 k = foldl (@map_add K) m l2 k.
Proof. by move=> H1 H2; rewrite !foldl_map_add H2 H1. Qed.
End MapLemmas.
