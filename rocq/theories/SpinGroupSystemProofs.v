(** Compound systems, T matrices and channels without charge. *)
From Coq Require Import Reals Lra Ascii String Permutation FunctionalExtensionality.
From mathcomp Require Import all_ssreflect all_algebra.
From Verif Require Import Outcome QuantumModel HardSphereModel HardSphereSpec HardSphereProofs
  KinematicsModel CoulombModel Cplx RMatrixModel RMatrixSpec RMatrixProofs
  RMatrixCodeProofs RMatrixObservableProofs ChannelModel SpinGroupModel SpinGroupSpec SpinGroupProofs
  SpinGroupEvalProofs.
Set Implicit Arguments.
Unset Strict Implicit.
Unset Printing Implicit Defensive.
Import GRing.Theory.
Local Open Scope ring_scope.

Section Eval.
Variables (hbar epsilon0 : R) (cwf : nat -> R -> R -> outcome coulomb) (b : boundary_option).
Notation evalG := (@evaluateGroup hbar epsilon0 cwf b).
Notation evalS := (@evaluateSystem hbar epsilon0 cwf b).

(** ** Order of the groups *)
Lemma evaluate_increments g energy (s s' : cache (gsize g)) m m' :
  evalG energy s m = Ok (Some (s', m')) ->
  exists d, m' = foldl (@map_add _) m d /\
    forall m2, evalG energy s m2 = Ok (Some (s', foldl (@map_add _) m2 d)).
Proof.
  rewrite /evaluateGroup; case: (groupValues _ _ _ _ _ _) => //= ovs.
  case: (at_or_ub _ _ _) => //= i; case: (at_or_ub _ _ _) => //= c.
  case: ovs => // vs; case: (channelFactor _ _ _) => // f.
  case: (rl_call _ _ _ _ _) => // -[s1 rl] [<- <-].
  exists (flatten [seq zip (g_reactions g) (crossSections f vs rl c) | c <- incident_ord g]).
  by rewrite foldl_process; split=> // m2; rewrite foldl_process.
Qed.

Lemma foldl_add_comm (K : eqType) (m : K -> option R) d1 d2 :
  foldl (@map_add K) (foldl (@map_add K) m d1) d2 = foldl (@map_add K) (foldl (@map_add K) m d2) d1.
Proof.
  apply: functional_extensionality => k; rewrite -!foldl_cat.
  apply: foldl_map_add_perm => [k'|k']; first by rewrite !big_cat /= Rplus_comm.
  by rewrite !map_cat !mem_cat orbC.
Qed.

Lemma system_order gs1 gs2 energy m gs1' m' : Permutation gs1 gs2 ->
  evalS gs1 energy m = Ok (Some (gs1', m')) ->
  exists gs2', evalS gs2 energy m = Ok (Some (gs2', m')) /\ Permutation gs1' gs2'.
Proof.
  move=> P; elim: P m gs1' m' => {gs1 gs2}.
  - by move=> m gs1' m' [<- <-]; exists [::].
  - move=> [g s] l1 l2 _ IH m gs1' m' /= H.
    have [[[s' m1]|] [E {}H]] := bind_ok H; last by [].
    have [[[r' m2]|] [E2 {}H]] := bind_ok H; last by [].
    case: H => <- <-; have [gs2' [E3 P]] := IH _ _ _ E2.
    by rewrite E /= E3 /=; eexists; split; [reflexivity | exact: perm_skip].
  - move=> [gx sx] [gy sy] l m gs1' m' /= H.
    have [[[sy' m1]|] [Ey {}H]] := bind_ok H; last by [].
    have [o [{}H H']] := bind_ok H.
    case: o H H' => [[r' m2]|] // H [<- <-].
    have [[[sx' m3]|] [Ex {}H]] := bind_ok H; last by [].
    have [[[r2 m4]|] [El {}H]] := bind_ok H; last by [].
    case: H => <- <-.
    have [dy [Hy Ty]] := evaluate_increments Ey; have [dx [Hx Tx]] := evaluate_increments Ex.
    rewrite Tx /= Ty /= foldl_add_comm -Hy -Hx El /=.
    by eexists; split; [reflexivity | exact: perm_swap].
  - move=> l1 l2 l3 _ IH1 _ IH2 m gs1' m' /IH1 [g2 [/IH2 [g3 [E P]] P2]].
    by exists g3; split=> //; apply: Permutation.perm_trans P2 P.
Qed.

(** the caches of the groups do not matter to the map *)
Lemma system_cache (gs1 gs2 : seq object) energy m :
  map (@projT1 _ _) gs1 = map (@projT1 _ _) gs2 ->
  evalS gs1 energy m = evalS gs2 energy m.
Proof.
  elim: gs1 gs2 m => [|[g s] gs1 IH] [|[g2 s2] gs2] m //= [Eg E].
  case: _ / Eg s2 => s2; rewrite (evaluate_cache hbar epsilon0 cwf b energy s s2).
  by case: (evaluateGroup _ _ _ _ _ _ _) => //= -[[s' m']|] //; rewrite (IH _ _ E).
Qed.

(** A system is the sum of its groups *)
Lemma system_sum gs energy m gs' m' : evalS gs energy m = Ok (Some (gs', m')) ->
  exists ds, m' = foldl (@map_add _) m (flatten ds) /\ size ds = size gs /\
    map (@projT1 _ _) gs' = map (@projT1 _ _) gs /\
    forall i, (i < size gs)%N -> forall x0 : object, exists s', forall m2,
      evalG energy (projT2 (nth x0 gs i)) m2 = Ok (Some (s', foldl (@map_add _) m2 (nth [::] ds i))).
Proof.
  elim: gs m gs' m' => [|[g s] gs IH] m gs' m' /= H; first by case: H => <- <-; exists [::].
  have [[[s' m1]|] [E {}H]] := bind_ok H; last by [].
  have [[[r' m2]|] [E2 {}H]] := bind_ok H; last by [].
  case: H => <- <-; have [d [Hd T]] := evaluate_increments E; have [ds [Hds [Es [Eg Hi]]]] := IH _ _ _ E2.
  exists (d :: ds) => /=; rewrite foldl_cat -Hd Es Eg; split=> //; split=> //; split=> //.
  move=> [|i] Hlt x0 /=; first by exists s'.
  exact: Hi.
Qed.

(** ** T matrix *)
Section SetLemmas.
Variables (K : eqType) (V : Type).
Notation mset := (fun (m : K -> option V) (kv : K * V) => map_set kv.1 kv.2 m).
Lemma foldl_set_absent (kvs : seq (K * V)) m k : k \notin [seq kv.1 | kv <- kvs] -> foldl mset m kvs k = m k.
Proof.
  elim: kvs m => [|[k' v] kvs IH] m //=; rewrite inE negb_or => /andP [/negbTE ne /IH ->].
  by rewrite /map_set /= ne.
Qed.
Lemma foldl_set_in (kvs : seq (K * V)) m k v : uniq [seq kv.1 | kv <- kvs] -> List.In (k, v) kvs ->
  foldl mset m kvs k = Some v.
Proof.
  elim: kvs m => [|[k' v'] kvs IH] m //= /andP [ni u] [[E1 E2]|H]; last exact: IH.
  by rewrite -E1 -E2 foldl_set_absent // /map_set /= eqxx.
Qed.
End SetLemmas.

Definition telements n (K : eqType) (key : 'I_n -> 'I_n -> K) vs (rl : 'M[cx]_n) : seq (K * cx) :=
  flatten [seq [seq (key c j, rcx (sqrtP vs c) * data rl c j * rcx (sqrtP vs j)) | j <- enum 'I_n] | c <- enum 'I_n].
Lemma zip_map2 (T A B : Type) (f : T -> A) (g : T -> B) s :
  zip [seq f x | x <- s] [seq g x | x <- s] = [seq (f x, g x) | x <- s].
Proof. by elim: s => //= x s ->. Qed.
Lemma processChannels_flat (K : eqType) n (key : 'I_n -> 'I_n -> K) vs (rl : 'M[cx]_n) m :
  processChannels key vs rl m = foldl (fun m kv => map_set kv.1 kv.2 m) m (telements key vs rl).
Proof.
  rewrite /processChannels /telements.
  have one m' c : processChannel key vs rl m' c = foldl (fun m kv => map_set kv.1 kv.2 m) m'
    [seq (key c j, rcx (sqrtP vs c) * data rl c j * rcx (sqrtP vs j)) | j <- enum 'I_n].
    by rewrite /processChannel /tElements zip_map2.
  move: one; move: (processChannel key vs rl) => F one.
  elim: {1 3}(enum 'I_n) m => [|c s IH] m //=; by rewrite one foldl_cat IH.
Qed.
Lemma telements_keys (K : eqType) n (key : 'I_n -> 'I_n -> K) vs (rl : 'M[cx]_n) :
  [seq kv.1 | kv <- telements key vs rl] = [seq key c j | c <- enum 'I_n, j <- enum 'I_n].
Proof.
  rewrite /telements map_flatten -map_comp; congr flatten; apply: eq_map => c /=.
  by rewrite -map_comp; apply: eq_map.
Qed.

Lemma In_mem (T : eqType) (x : T) s : x \in s -> List.In x s.
Proof. by elim: s => //= y s IH; rewrite inE => /orP [/eqP -> | /IH]; [left | right]. Qed.
Lemma In_flatten (T : Type) (x : T) s ss : List.In x s -> List.In s ss -> List.In x (flatten ss).
Proof.
  move=> H; elim: ss => //= s' ss IH [-> | /IH {}IH]; apply/List.in_or_app; [by left | by right].
Qed.
Lemma In_map (A B : Type) (f : A -> B) x s : List.In x s -> List.In (f x) [seq f y | y <- s].
Proof. exact: List.in_map. Qed.

Lemma process_T (K : eqType) n energy table (key : 'I_n -> 'I_n -> K) vs (A : 'M[cx]_n) m :
  is_RL b energy table vs A ->
  (forall c j c' j', key c j = key c' j' -> c = c' /\ j = j') ->
  (forall c j, processChannels key vs A m (key c j) = Some (T_spec vs A c j)) /\
  (forall k, (forall c j, k <> key c j) -> processChannels key vs A m k = m k).
Proof.
  move=> rl inj; rewrite processChannels_flat; split=> [c j | k H].
  - apply: foldl_set_in.
      rewrite telements_keys; apply: allpairs_uniq => [||[c1 j1] [c2 j2] _ _ /= /inj [-> ->]] //; exact: enum_uniq.
    rewrite T_entry (A_sym rl) /telements.
    eapply In_flatten; last first.
      eapply (@In_map _ _ (fun c => [seq (key c j, rcx (sqrtP vs c) * data A c j * rcx (sqrtP vs j)) | j <- enum 'I_n]) c).
      by apply: In_mem; rewrite mem_enum.
    apply: (@In_map _ _ (fun j => (key c j, rcx (sqrtP vs c) * data A c j * rcx (sqrtP vs j)))).
    by apply: In_mem; rewrite mem_enum.
  - apply: foldl_set_absent; rewrite telements_keys; apply/allpairsP => -[[c j] /= [_ _ E]].
    exact: (H c j).
Qed.

(** keys *)
Lemma arrow_free_cons a s : arrow_free (String a s) -> a <> ">"%char /\ arrow_free s.
Proof. by move=> H; split=> [E | i]; [apply: (H 0%N); rewrite /= E | apply: (H i.+1)]. Qed.
Lemma key_inj a a' c c' : arrow_free a -> arrow_free a' ->
  (a ++ "->" ++ c = a' ++ "->" ++ c')%string -> a = a' /\ c = c'.
Proof.
  elim: a a' => [|x a IH] [|x' a'] /=.
  - by move=> _ _ [->].
  - move=> _ /arrow_free_cons [n1 H2] [<-]; case: a' H2 => [|y a'] /=; first by [].
    by move=> /arrow_free_cons [ne _] [E]; case: ne; rewrite E.
  - move=> /arrow_free_cons [n1 H2] _ [->]; case: a {IH} H2 => [|y a] /=; first by [].
    by move=> /arrow_free_cons [ne _] [E]; case: ne; rewrite E.
  - by move=> /arrow_free_cons [_ H1] /arrow_free_cons [_ H2] [-> /(IH _ H1 H2) [-> ->]].
Qed.

Lemma verify_ids channels : verifyChannels channels = Ok tt -> uniq [seq c_id c | c <- channels].
Proof.
  case: channels => // c0 cs H.
  have [[] [_ {}H]] := bind_ok H; have [[] [{}H _]] := bind_ok H.
  move: H; move: (c0 :: cs) => l.
  have gen (l' : seq channel) : foldM (fun (_ : unit) e => check (negb (PeanoNat.Nat.ltb 1
                (ChannelModel.count (fun c => String.eqb (c_id c) (c_id e)) l)))) l' tt = Ok tt ->
    forall e, List.In e l' -> (ChannelModel.count (fun c => String.eqb (c_id c) (c_id e)) l <= 1)%N.
    elim: l' => [|x l' IH] // H e /=; have [[] [H1 H2]] := bind_ok H => -[<- | Hin]; last exact: IH.
    move: H1; rewrite /check; case E: (PeanoNat.Nat.ltb _ _) => //= _.
    by move/PeanoNat.Nat.ltb_ge: E => /leP.
  move=> /gen {gen} H.
  have {}H : forall e, List.In e l -> (count_mem (c_id e) [seq c_id c | c <- l] <= 1)%N.
    move=> e He; have := H e He.
    suff -> : ChannelModel.count (fun c : channel => (c_id c =? c_id e)%string) l = count_mem (c_id e) [seq c_id c | c <- l] by [].
    elim: (l) => //= x l0 ->; rewrite /eq_op /=; by case: String.eqb.
  elim: l H => //= x l IH H; apply/andP; split.
    have := H x (or_introl erefl); rewrite eqxx add1n ltnS leqn0 => /eqP E.
    by rewrite -has_pred1 has_count E.
  apply: IH => e He; have := H e (or_intror He).
  by apply: leq_trans; rewrite leq_addl.
Qed.
End Eval.
