(** The T matrix of a compound system. *)
From Coq Require Import Reals Lra Ascii String List ZArith Permutation FunctionalExtensionality.
From mathcomp Require Import all_ssreflect all_algebra.
From Verif Require Import Outcome QuantumModel QuantumSpec QuantumIdProofs KinematicsModel CoulombModel Cplx RMatrixModel RMatrixSpec ChannelModel SpinGroupModel SpinGroupSpec SpinGroupProofs
  SpinGroupEvalProofs SpinGroupSystemProofs SpinGroupChannelProofs SpinGroupTheorems AssemblyModel AssemblySpec AssemblyTheorems SystemTSpec.
Set Implicit Arguments.
Unset Strict Implicit.
Unset Printing Implicit Defensive.
Import GRing.Theory.
Local Open Scope ring_scope.

Lemma chan_in g (c : 'I_(gsize g)) : List.In (chan c) (g_channels g).
Proof.
  rewrite /chan; have := ltn_ord c; rewrite {2}/gsize.
  by elim: (g_channels g) (nat_of_ord c) => //= x l IH [|i] lt; [left | right; apply: IH].
Qed.

Lemma has_false (T : Type) (p : T -> bool) l : has p l = false -> forall x, List.In x l -> p x = false.
Proof. by elim: l => //= y l IH /norP [/negbTE H1 /negbTE H2] x [<- | Hx] //; apply: IH. Qed.
Lemma sum_zero (T : Type) (F : T -> R) l : (forall x, List.In x l -> F x = 0%re) -> \big[Rplus/0%re]_(x <- l) F x = 0%re.
Proof.
  elim: l => [|y l IH] H; first by rewrite big_nil.
  by rewrite big_cons H ?IH ?Rplus_0_l //; [move=> x Hx; apply: H; right | left].
Qed.

Section Eval.
Variables (hbar epsilon0 : R) (cwf : nat -> R -> R -> outcome coulomb) (b : boundary_option) (energy : R).
Notation evalG := (@evaluateGroup hbar epsilon0 cwf b).
Notation evalT := (@evaluateTGroup hbar epsilon0 cwf b).
Notation evalS := (@evaluateSystem hbar epsilon0 cwf b).
Notation evalTS := (@evaluateTSystem hbar epsilon0 cwf b).
Notation ready := (@ready hbar epsilon0 cwf b energy).
Notation holds := (@holds hbar epsilon0 cwf b energy).
Notation tag := (@projT1 group (fun g => cache (gsize g))).

Lemma ready_arrow g c : ready g -> List.In c (g_channels g) -> arrow_free (c_id c).
Proof.
  move=> [channels [rs [vs [factor [con [_ [_ [_ [_ af]]]]]]]]] Hc; apply: af.
  by have [t [made _]] := constructed_made con; have [<- _] := makeGroup_ok made.
Qed.
Lemma keys_apart g h (c j : 'I_(gsize g)) (d i : 'I_(gsize h)) : ready g -> ready h ->
  (forall x y, List.In x (g_channels g) -> List.In y (g_channels h) -> c_id x <> c_id y) -> key c j <> key d i.
Proof.
  move=> Rg Rh ap E; apply: (ap (chan c) (chan d)); try exact: chan_in.
  have af1 : arrow_free (c_id (chan c)) by apply: ready_arrow (Rg) _; apply: chan_in.
  have af2 : arrow_free (c_id (chan d)) by apply: ready_arrow (Rh) _; apply: chan_in.
  by case: (key_inj af1 af2 E).
Qed.

Lemma group_both g (s : cache (gsize g)) t m : ready g -> exists s1 t' s2 m',
  evalT energy s t = Ok (Some (s1, t')) /\ evalG energy s m = Ok (Some (s2, m')) /\
  holds g t' /\ (forall k, (forall c j : 'I_(gsize g), k <> key c j) -> t' k = t k) /\
  (forall k, written g k = false -> m' k = m k) /\
  (forall k, written g k -> transfer_only g k -> forall u, (forall c j : 'I_(gsize g), u (key c j) = t' (key c j)) ->
     m' k = Some (odflt 0 (m k) + from_T hbar energy u g k)%re).
Proof.
  move=> [channels [rs [vs [factor [con [Ev [Ef [ph [reg af]]]]]]]]].
  have [A [ev [HT HG]]] := T_consistent con Ev Ef ph reg af.
  have [s1 [t' [E1 [V1 U1]]]] := HT s t; have [s2 [m' [E2 V2]]] := HG s m.
  exists s1, t', s2, m'; split=> //; split=> //; split.
    by have [t0 [made [Ers _]]] := constructed_made con; have [_ [Et _]] := makeGroup_ok made; exists vs, A, factor; rewrite Et Ers.
  split=> //; split.
    by move=> k Hk; have [x [ad _]] := adds con E2; rewrite ad Hk.
  move=> k wr [nc ni] u Hu; rewrite (V2 _ wr nc ni); congr (Some (_ + _))%re.
  rewrite /from_T Ef /=; congr (_ * _)%re; apply: eq_bigr => c _; apply: eq_bigr => j _.
  by rewrite Hu V1.
Qed.

Lemma not_written g k t : written g k = false -> from_T hbar energy t g k = 0%re.
Proof.
  rewrite /written => /negbT; rewrite negb_or => /andP [_ /negbTE H]; rewrite /from_T.
  rewrite big1 ?Rmult_0_r // => c _; rewrite big_pred0 // => j.
  exact: (has_false H (@chan_in g j)).
Qed.

Lemma system_both gs : (forall o, List.In o gs -> ready (tag o)) -> apart (map tag gs) -> forall t m,
  exists gs1 t' gs2 m', evalTS gs energy t = Ok (Some (gs1, t')) /\ evalS gs energy m = Ok (Some (gs2, m')) /\
    map tag gs1 = map tag gs /\
    (forall g, List.In g (map tag gs) -> holds g t') /\
    (forall k, (forall g, List.In g (map tag gs) -> forall c j : 'I_(gsize g), k <> key c j) -> t' k = t k) /\
    (forall k, (forall g, List.In g (map tag gs) -> transfer_only g k) ->
      m' k = if has (fun g => written g k) (map tag gs)
             then Some (odflt 0 (m k) + \big[Rplus/0]_(g <- map tag gs) from_T hbar energy t' g k)%re else m k).
Proof.
  elim: gs => [|[g s] gs IH] R ap t m.
    by exists [::], t, [::], m; split=> //; split=> //; split=> //; split.
  have Rg : ready g by apply: (R (existT _ g s)); left.
  have Rr : forall o, List.In o gs -> ready (tag o) by move=> o Ho; apply: R; right.
  have [apg apr] : (forall h, List.In h (map tag gs) -> forall c d, List.In c (g_channels g) -> List.In d (g_channels h) -> c_id c <> c_id d) /\ apart (map tag gs).
    by inversion ap as [|? ? F O]; split=> // h Hh; move/Forall_forall: F; apply.
  have [s1 [t1 [s2 [m1 [E1 [E2 [H1 [K1 [N1 W1]]]]]]]]] := group_both s t m Rg.
  have [gs1 [t' [gs2 [m' [E3 [E4 [Eg [H2 [K2 W2]]]]]]]]] := IH Rr apr t1 m1.
  have Rin h : List.In h (map tag gs) -> ready h by move=> /List.in_map_iff [o [<- /Rr]].
  have same c j : t' (@key g c j) = t1 (key c j).
    by apply: K2 => h Hh d i; apply: keys_apart => //; [exact: Rin | exact: apg].
  exists (existT _ g s1 :: gs1), t', (existT _ g s2 :: gs2), m'.
  split; first by rewrite /= E1 /= E3.
  split; first by rewrite /= E2 /= E4.
  split; first by rewrite /= Eg.
  split.
    move=> h [<- | Hh]; last exact: H2.
    by case: H1 => vs [A [f [e V]]]; exists vs, A, f; split=> // c j; rewrite same.
  split.
    by move=> k Hk; rewrite K2; [apply: K1; apply: (Hk g); left | move=> h Hh; apply: Hk; right].
  move=> k Hk; rewrite W2; last by move=> h Hh; apply: Hk; right.
  rewrite [has _ (map tag _)]/= [map tag _]/= big_cons.
  have tg : transfer_only g k by apply: Hk; left.
  case Wg: (written g k) => /=.
    have V := W1 _ Wg tg t' same.
    case Hh: (has (fun g => written g k) (map tag gs)).
      by rewrite V Wg /= Rplus_assoc.
    rewrite V Wg /=; congr (Some (_ + _))%re; rewrite [X in (_ + X)%re]sum_zero ?Rplus_0_r // => h Hin.
    by apply: not_written; apply: has_false Hh _ Hin.
  rewrite (not_written _ Wg) Rplus_0_l (N1 _ Wg) Wg /=.
  by case: (has _ _).
Qed.

(** ** Order *)
Lemma holds_same g t u : holds g t -> holds g u -> forall c j : 'I_(gsize g), t (key c j) = u (key c j).
Proof.
  move=> [vs [A [f [[Ev [_ rl]] V]]]] [vs2 [A2 [f2 [[Ev2 [_ rl2]] V2]]]] c j.
  rewrite Ev in Ev2; case: Ev2 => Evs; subst vs2; by rewrite V V2 (is_RL_unique rl rl2).
Qed.
Lemma apart_perm gs1 gs2 : Permutation gs1 gs2 -> apart gs1 -> apart gs2.
Proof.
  rewrite /apart; elim=> {gs1 gs2} //.
  - move=> g l1 l2 P IH H; inversion H as [|? ? F O]; subst; constructor; last exact: IH.
    by apply/Forall_forall => h Hh; move/Forall_forall: F; apply; apply: Permutation_in Hh; apply: Permutation_sym.
  - move=> g h l H; inversion H as [|? ? F O]; subst; inversion O as [|? ? F2 O2]; subst; inversion F as [|? ? F1 F3]; subst.
    constructor; last by constructor.
    by constructor=> // c d Hc Hd E; apply: (F1 d c Hd Hc); rewrite E.
  - by move=> l1 l2 l3 _ H1 _ H2 /H1 /H2.
Qed.
Lemma system_T_order gs1 gs2 : (forall o, List.In o gs1 -> ready (tag o)) -> apart (map tag gs1) -> Permutation gs1 gs2 -> forall t,
  exists r1 r2 t', evalTS gs1 energy t = Ok (Some (r1, t')) /\ evalTS gs2 energy t = Ok (Some (r2, t')).
Proof.
  move=> R ap P t.
  have R2 o : List.In o gs2 -> ready (tag o) by move=> Ho; apply: R; apply: Permutation_in Ho; apply: Permutation_sym.
  have PM : Permutation (map tag gs1) (map tag gs2) by apply: Permutation_map.
  have ap2 : apart (map tag gs2) by apply: apart_perm ap.
  have [r1 [t1 [_ [_ [E1 [_ [_ [H1 [K1 _]]]]]]]]] := system_both R ap t (fun _ => None).
  have [r2 [t2 [_ [_ [E2 [_ [_ [H2 [K2 _]]]]]]]]] := system_both R2 ap2 t (fun _ => None).
  exists r1, r2, t1; split=> //; rewrite E2; congr (Ok (Some (_, _))).
  apply: FunctionalExtensionality.functional_extensionality => k.
  case: (Classical_Prop.classic (exists g, List.In g (map tag gs1) /\ exists c j : 'I_(gsize g), k = key c j)) => [[g [Hg [c [j ->]]]] | N].
    by apply: holds_same; [apply: H2; apply: Permutation_in Hg | exact: H1].
  rewrite K1 ?K2 // => g Hg c j E; apply: N; exists g; split; try by exists c, j.
    by apply: Permutation_in Hg; apply: Permutation_sym.
  exact: Hg.
Qed.
End Eval.

(** ** The identifiers that the constructors make *)
Lemma default_apart gs : (forall g, List.In g gs -> exists channels rs, constructed channels rs g) ->
  (forall g c, List.In g gs -> List.In c (g_channels g) -> default_id c) -> makeSystem gs = Ok gs -> apart gs.
Proof.
  move=> con ids sys.
  have ne g : List.In g gs -> g_channels g <> [::].
    by move=> /con [channels [rs /constructed_made [t [made _]]]]; have [-> [_ [_ [H _]]]] := makeGroup_ok made.
  have [[_ /(_ sys) [_ nd]] _] := @system_accepts gs ne.
  have jp g : List.In g gs -> forall c, List.In c (g_channels g) -> Jpi_of (c_numbers c) = match g_channels g with x :: _ => Jpi_of (c_numbers x) | [::] => (Z0, Z0) end.
    move=> Hg; have [channels [rs /constructed_made [t [made _]]]] := con _ Hg; have [-> [_ [_ [nn _]]]] := makeGroup_ok made.
    case: channels nn made => // c0 cs _ made c Hc.
    have [A N] := group_accepts c0 cs t.
    case: (Classical_Prop.classic (acceptable_group (c0 :: cs) t)) => [[_ [_ [J _]]] | /N]; last by rewrite made.
    by rewrite /Jpi_of; have [-> ->] := J c c0 Hc (or_introl erefl).
  clear sys; elim: gs con ids ne nd jp => [|g gs IH] con ids ne nd jp; first by constructor.
  inversion nd as [|? ? ni nd']; subst; constructor; last first.
    apply: IH => //.
    - by move=> h Hh; apply: con; right.
    - by move=> h c Hh; apply: ids; right.
    - by move=> h Hh; apply: ne; right.
    - by move=> h Hh; apply: jp; right.
  apply/Forall_forall => h Hh c d Hc Hd E.
  have [a [A1 [A2 A3]]] := ids g c (or_introl erefl) Hc; have [e [B1 [B2 B3]]] := ids h d (or_intror Hh) Hd.
  rewrite A3 B3 in E; have [_ Eq] := channelID_inj _ _ _ _ A1 B1 A2 B2 E.
  apply: ni; apply/List.in_map_iff; exists h; split=> //.
  by rewrite -(jp h (or_intror Hh) d Hd) -(jp g (or_introl erefl) c Hc) Eq.
Qed.
