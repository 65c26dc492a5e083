(** A test for a polynomial with integer coefficients to be nonnegative on a half line. *)
From Coq Require Import List ZArith Reals Lra Lia Bool.
Import ListNotations.
Open Scope R_scope.

Fixpoint peval (p : list Z) (t : R) : R := match p with [] => 0 | c :: p' => IZR c + t * peval p' t end.
Fixpoint padd (p q : list Z) : list Z :=
  match p, q with [], _ => q | _, [] => p | a :: p', b :: q' => (a + b)%Z :: padd p' q' end.
Definition pscal (c : Z) (p : list Z) : list Z := map (Z.mul c) p.
Fixpoint pmul (p q : list Z) : list Z := match p with [] => [] | a :: p' => padd (pscal a q) (0%Z :: pmul p' q) end.
Fixpoint ppow (p : list Z) (k : nat) : list Z := match k with O => [1%Z] | S k' => pmul p (ppow p k') end.
(** p (a + t), p (h t), and the polynomial (1 + u)^n p (u / (1 + u)) *)
Fixpoint pshift (a : Z) (p : list Z) : list Z := match p with [] => [] | c :: p' => padd [c] (pmul [a; 1%Z] (pshift a p')) end.
Fixpoint pdilate (k h : Z) (p : list Z) : list Z := match p with [] => [] | c :: p' => (c * k)%Z :: pdilate (k * h) h p' end.
Fixpoint pbern (p : list Z) : list Z := match p with [] => [] | c :: p' => padd (pscal c (ppow [1%Z; 1%Z] (length p'))) (0%Z :: pbern p') end.
Definition nonneg (p : list Z) : bool := forallb (Z.leb 0) p.
(** Nonnegative from a on; the half line is cut into pieces of the given lengths *)
Fixpoint nonneg_from (a : Z) (hs : list Z) (p : list Z) : bool :=
  match hs with
  | [] => nonneg (pshift a p)
  | h :: hs' => (0 <? h)%Z && nonneg (pbern (pdilate 1 h (pshift a p))) && nonneg_from (a + h) hs' p
  end.

Lemma padd_eval p q t : peval (padd p q) t = peval p t + peval q t.
Proof. revert q. induction p as [|a p IH]; intros [|b q]; cbn [padd peval]; [ring..|]. rewrite IH, plus_IZR. ring. Qed.
Lemma pscal_eval c p t : peval (pscal c p) t = IZR c * peval p t.
Proof. induction p as [|a p IH]; cbn [pscal map peval]; [ring|]. unfold pscal in IH. rewrite IH, mult_IZR. ring. Qed.
Lemma pmul_eval p q t : peval (pmul p q) t = peval p t * peval q t.
Proof. induction p as [|a p IH]; cbn [pmul peval]; [ring|]. rewrite padd_eval, pscal_eval. cbn [peval]. rewrite IH. ring. Qed.
Lemma ppow_eval p k t : peval (ppow p k) t = peval p t ^ k.
Proof. induction k as [|k IH]; cbn [ppow pow]; [cbn; ring|]. rewrite pmul_eval, IH. ring. Qed.
Lemma pshift_eval a p t : peval (pshift a p) t = peval p (IZR a + t).
Proof. induction p as [|c p IH]; [reflexivity|]. cbn [pshift]. rewrite padd_eval, pmul_eval, IH. cbn [peval]. ring. Qed.
Lemma pdilate_eval k h p t : peval (pdilate k h p) t = IZR k * peval p (IZR h * t).
Proof. revert k. induction p as [|c p IH]; intros k; cbn [pdilate peval]; [ring|]. rewrite IH, !mult_IZR. ring. Qed.
Lemma pbern_eval p u : 0 <= u -> (1 + u) * peval (pbern p) u = (1 + u) ^ length p * peval p (u / (1 + u)).
Proof.
  intros Hu. induction p as [|c p IH]; [cbn; ring|]. cbn [pbern length pow]. rewrite padd_eval, pscal_eval, ppow_eval. cbn [peval].
  replace ((1 + u) * (IZR c * (1 + u * (1 + u * 0)) ^ length p + (0 + u * peval (pbern p) u)))
    with ((1 + u) * (IZR c * (1 + u * (1 + u * 0)) ^ length p) + u * ((1 + u) * peval (pbern p) u)) by ring. rewrite IH.
  replace (1 + u * (1 + u * 0)) with (1 + u) by ring. field. lra.
Qed.
Lemma nonneg_eval p t : nonneg p = true -> 0 <= t -> 0 <= peval p t.
Proof.
  intros H Ht. induction p as [|c p IH]; [cbn; lra|]. cbn in H. apply andb_prop in H as (H1 & H2). cbn [peval]. apply Z.leb_le, IZR_le in H1.
  specialize (IH H2). pose proof (Rmult_le_pos t (peval p t) Ht IH). lra.
Qed.
Theorem nonneg_from_eval hs : forall a p t, nonneg_from a hs p = true -> IZR a <= t -> 0 <= peval p t.
Proof.
  induction hs as [|h hs IH]; intros a p t H Ht; cbn [nonneg_from] in H.
  - pose proof (nonneg_eval _ (t - IZR a) H ltac:(lra)) as P. rewrite pshift_eval in P. replace (IZR a + (t - IZR a)) with t in P by ring. exact P.
  - apply andb_prop in H as (H & H3). apply andb_prop in H as (H1 & H2). apply Z.ltb_lt, IZR_lt in H1.
    destruct (Rle_dec (IZR (a + h)) t) as [L | L]; [exact (IH _ _ _ H3 L)|]. rewrite plus_IZR in L.
    set (v := (t - IZR a) / IZR h). assert (Ev : IZR h * v = t - IZR a) by (unfold v; field; lra).
    assert (V0 : 0 <= v) by nra. assert (V1 : v < 1) by nra.
    set (u := v / (1 - v)). assert (U0 : 0 <= u) by (apply Rmult_le_pos; [lra | left; apply Rinv_0_lt_compat; lra]).
    assert (Eu : u / (1 + u) = v) by (unfold u; field; lra).
    pose proof (nonneg_eval _ u H2 U0) as P. pose proof (pbern_eval (pdilate 1 h (pshift a p)) u U0) as E. rewrite Eu, pdilate_eval, pshift_eval, Ev in E.
    replace (IZR a + (t - IZR a)) with t in E by ring. rewrite Rmult_1_l in E.
    set (L0 := (1 + u) ^ _) in E. assert (PL : 0 < L0) by (apply pow_lt; lra). assert (0 <= (1 + u) * peval (pbern (pdilate 1 h (pshift a p))) u) by (apply Rmult_le_pos; lra).
    rewrite E in H. destruct (Rle_dec 0 (peval p t)); [assumption|]. exfalso. assert (L0 * peval p t < 0) by nra. lra.
Qed.

(** Sums of fractions *)
Fixpoint fractions (l : list (list Z * list Z)) : list Z * list Z :=
  match l with
  | [] => ([], [1%Z])
  | (t, d) :: l' => let (N, D) := fractions l' in (padd (pmul N d) (pmul t D), pmul D d)
  end.
Definition fraction_sum (l : list (list Z * list Z)) (s : R) : R := fold_right Rplus 0 (map (fun f => peval (fst f) s / peval (snd f) s) l).
Lemma fractions_eval l s : (forall f, In f l -> 0 < peval (snd f) s) ->
  0 < peval (snd (fractions l)) s /\ peval (fst (fractions l)) s = fraction_sum l s * peval (snd (fractions l)) s.
Proof.
  induction l as [|(t & d) l IH]; intros H; [cbn; split; [lra | ring]|]. cbn [fractions]. destruct (fractions l) as (N & D).
  destruct IH as (P & E); [intros f Hf; apply H; right; exact Hf|]. cbn [fst snd] in *. pose proof (H (t, d) (or_introl eq_refl)) as Pd. cbn [snd] in Pd.
  rewrite padd_eval, !pmul_eval. split; [apply Rmult_lt_0_compat; assumption|]. unfold fraction_sum in *. cbn [map fold_right fst snd]. rewrite E. field. lra.
Qed.
