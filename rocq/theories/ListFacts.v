(** Facts about lists, sums and the grouping of sorted lists, used by several topics. *)
From Coq Require Import List ZArith Reals Lra Lia Permutation Sorted Bool.
From Verif Require Import Outcome QuantumSpec BreitWignerModel.
Import ListNotations.
Open Scope R_scope.

Lemma bind_Ok {A B} (o : outcome A) (f : A -> outcome B) b :
  bind o f = Ok b -> exists a, o = Ok a /\ f a = Ok b.
Proof. destruct o; cbn; try discriminate. intros H; exists a; auto. Qed.

Lemma mapM_Ok {A B} (f : A -> outcome B) l ys :
  mapM f l = Ok ys <-> Forall2 (fun x y => f x = Ok y) l ys.
Proof.
  revert ys; induction l as [|x l IH]; intros ys; cbn.
  - split; [intros H; injection H as <-; constructor | inversion 1; reflexivity].
  - split.
    + intros H. apply bind_Ok in H as (y & E & H). apply bind_Ok in H as (zs & E' & H).
      injection H as <-. constructor; [exact E | apply IH; exact E'].
    + inversion 1 as [|? y ? zs E E']; subst. rewrite E; cbn.
      apply IH in E'. rewrite E'. reflexivity.
Qed.

Lemma Forall2_perm {A B} (P : A -> B -> Prop) l l' : Permutation l l' ->
  forall ys, Forall2 P l ys -> exists ys', Forall2 P l' ys' /\ Permutation ys ys'.
Proof.
  induction 1 as [|x l l' H IH|x y l|l l' l'' H1 IH1 H2 IH2]; intros ys F.
  - inversion F; subst. exists []; split; constructor.
  - inversion F as [|? y ? zs E F']; subst. destruct (IH _ F') as (zs' & F'' & Q).
    exists (y :: zs'); split; constructor; auto.
  - inversion F as [|? a ? zs E F']; subst. inversion F' as [|? b ? ws E' F'']; subst.
    exists (b :: a :: ws); split; [repeat constructor; auto | apply perm_swap].
  - destruct (IH1 _ F) as (ys1 & F1 & Q1). destruct (IH2 _ F1) as (ys2 & F2 & Q2).
    exists ys2; split; [exact F2 | eapply perm_trans; eauto].
Qed.

Lemma mapM_perm {A B} (f : A -> outcome B) l l' ys : Permutation l l' ->
  mapM f l = Ok ys -> exists ys', mapM f l' = Ok ys' /\ Permutation ys ys'.
Proof.
  intros P E. apply mapM_Ok in E. destruct (Forall2_perm _ _ _ P _ E) as (ys' & F & Q).
  exists ys'; split; [apply mapM_Ok; exact F | exact Q].
Qed.

Lemma all_finite_Some {A} (l : list (option A)) xs :
  all_finite l = Some xs <-> l = map Some xs.
Proof.
  revert xs; induction l as [|o l IH]; intros xs; cbn.
  - split; [intros H; injection H as <-; reflexivity | destruct xs; [reflexivity | discriminate]].
  - destruct o as [x|].
    + destruct (all_finite l) as [zs|] eqn:E.
      * split.
        -- intros H; injection H as <-. cbn. f_equal. apply IH; reflexivity.
        -- destruct xs as [|z xs]; cbn; [discriminate|]. intros H; injection H as -> H.
           apply IH in H. injection H as ->. reflexivity.
      * split; [discriminate|]. destruct xs as [|z xs]; cbn; [discriminate|].
        intros H; injection H as -> H. apply IH in H. discriminate.
    + split; [discriminate|]. destruct xs; cbn; discriminate.
Qed.

Lemma all_finite_map {A B} (f : A -> option B) l :
  (exists ys, all_finite (map f l) = Some ys) <-> forall x, In x l -> f x <> None.
Proof.
  induction l as [|x l IH]; cbn.
  - split; [intros _ x [] | intros _; exists []; reflexivity].
  - destruct (f x) as [y|] eqn:E.
    + destruct (all_finite (map f l)) as [ys|] eqn:E'.
      * split; [|intros _; eexists; reflexivity]. intros _ z [<-|H]; [congruence|].
        apply IH; eauto.
      * split; [intros (ys & H); discriminate|]. intros H.
        destruct (proj2 IH) as (ys & H'); [|discriminate]. intros z Hz; apply H; auto.
    + split; [intros (ys & H); discriminate|]. intros H. exfalso; apply (H x); auto.
Qed.

(** with a value for each element *)
Lemma all_finite_value {A B} (f : A -> option B) (d : A -> B) l :
  (forall x, In x l -> forall y, f x = Some y -> d x = y) ->
  all_finite (map f l) =
    if forallb (fun x => match f x with Some _ => true | None => false end) l
    then Some (map d l) else None.
Proof.
  induction l as [|x l IH]; intros H; cbn; [reflexivity|].
  destruct (f x) as [y|] eqn:E; [|reflexivity]. cbn.
  rewrite IH by (intros z Hz; apply H; right; exact Hz).
  rewrite (H x (or_introl eq_refl) y E).
  destruct (forallb _ l); reflexivity.
Qed.

Lemma forallb_perm {A} (f : A -> bool) l l' : Permutation l l' -> forallb f l = forallb f l'.
Proof.
  induction 1; cbn; [reflexivity | congruence | | congruence].
  destruct (f x), (f y); reflexivity.
Qed.

Lemma Rsum_cons x l : Rsum (x :: l) = x + Rsum l.
Proof. reflexivity. Qed.
Lemma Rsum_nil : Rsum [] = 0.
Proof. reflexivity. Qed.
Lemma Rsum_app a b : Rsum (a ++ b) = Rsum a + Rsum b.
Proof. induction a as [|x a IH]; cbn [app]; rewrite ?Rsum_cons, ?Rsum_nil; lra. Qed.
Lemma Rsum_perm a b : Permutation a b -> Rsum a = Rsum b.
Proof. induction 1; rewrite ?Rsum_cons; lra. Qed.
Lemma Rsum_scale {A} c (f : A -> R) l : Rsum (map (fun x => c * f x) l) = c * Rsum (map f l).
Proof. induction l as [|x l IH]; cbn [map]; rewrite ?Rsum_cons, ?Rsum_nil, ?IH; lra. Qed.
Lemma Rsum_plus {A} (f g : A -> R) l :
  Rsum (map (fun x => f x + g x) l) = Rsum (map f l) + Rsum (map g l).
Proof. induction l as [|x l IH]; cbn [map]; rewrite ?Rsum_cons, ?Rsum_nil, ?IH; lra. Qed.
Lemma Rsum_minus {A} (f g : A -> R) l :
  Rsum (map (fun x => f x - g x) l) = Rsum (map f l) - Rsum (map g l).
Proof. induction l as [|x l IH]; cbn [map]; rewrite ?Rsum_cons, ?Rsum_nil, ?IH; lra. Qed.
Lemma Rsum_ext {A} (f g : A -> R) l : (forall x, In x l -> f x = g x) ->
  Rsum (map f l) = Rsum (map g l).
Proof. intros H. f_equal. apply map_ext_in; exact H. Qed.
Lemma Rsum_nonneg l : (forall x, In x l -> 0 <= x) -> 0 <= Rsum l.
Proof.
  induction l as [|x l IH]; intros H; cbn [map]; rewrite ?Rsum_cons, ?Rsum_nil; [lra|].
  pose proof (H x (or_introl eq_refl)). specialize (IH (fun y Hy => H y (or_intror Hy))). lra.
Qed.
Lemma Rsum_map_nonneg {A} (f : A -> R) l : (forall x, In x l -> 0 <= f x) -> 0 <= Rsum (map f l).
Proof.
  intros H. apply Rsum_nonneg. intros y Hy. apply in_map_iff in Hy as (x & <- & Hx). auto.
Qed.
Lemma Rsum_le {A} (f g : A -> R) l : (forall x, In x l -> f x <= g x) ->
  Rsum (map f l) <= Rsum (map g l).
Proof.
  induction l as [|x l IH]; intros H; cbn [map]; rewrite ?Rsum_cons, ?Rsum_nil; [lra|].
  pose proof (H x (or_introl eq_refl)). specialize (IH (fun y Hy => H y (or_intror Hy))). lra.
Qed.
Lemma Rsum_Forall2 {A B} (P : A -> B -> Prop) (f : A -> R) (g : B -> R) l m :
  Forall2 P l m -> (forall a b, P a b -> f a = g b) -> Rsum (map f l) = Rsum (map g m).
Proof. intros F H. induction F as [|a b l m E F IH]; cbn [map]; [reflexivity|]. rewrite !Rsum_cons, (H a b E), IH; reflexivity. Qed.

(** accumulate over packs *)
Definition t0 (t : triple) : R := fst (fst t).
Definition t1 (t : triple) : R := snd (fst t).
Definition t2 (t : triple) : R := snd t.
Lemma triple_eta (t : triple) : t = (t0 t, t1 t, t2 t).
Proof. destruct t as [[a b] c]; reflexivity. Qed.
Lemma taccumulate_sum l : forall a b c,
  taccumulate l (a, b, c) = (a + Rsum (map t0 l), b + Rsum (map t1 l), c + Rsum (map t2 l)).
Proof.
  unfold taccumulate. induction l as [|[[x y] z] l IH]; intros a b c; cbn [fold_left tadd map].
  - rewrite ?Rsum_nil; repeat (f_equal; try lra).
  - rewrite IH. cbn [map t0 t1 t2 fst snd]. rewrite !Rsum_cons. repeat (f_equal; try lra).
Qed.

(** Grouping of a sorted list *)
Section Group.
Context {A : Type} (key : A -> R).
Definition Reqb (x y : R) : bool := if Req_EM_T x y then true else false.
Lemma Reqb_eq x y : Reqb x y = true <-> x = y.
Proof. unfold Reqb; destruct (Req_EM_T x y); split; intros; congruence. Qed.
Lemma Reqb_refl x : Reqb x x = true.
Proof. apply Reqb_eq; reflexivity. Qed.
Lemma Reqb_neq x y : x <> y -> Reqb x y = false.
Proof. intros H; unfold Reqb; destruct (Req_EM_T x y); congruence. Qed.
Definition keyed (x : R) (l : list A) : list A := filter (fun a => Reqb (key a) x) l.
Definition ascending (l : list A) : Prop := StronglySorted (fun a b => key a <= key b) l.

Lemma keyed_cons x a l : keyed x (a :: l) = if Reqb (key a) x then a :: keyed x l else keyed x l.
Proof. reflexivity. Qed.
Lemma keyed_none x l : (forall a, In a l -> key a <> x) -> keyed x l = [].
Proof.
  induction l as [|a l IH]; intros H; [reflexivity|]. rewrite keyed_cons.
  rewrite Reqb_neq by (apply H; left; reflexivity). apply IH. intros b Hb; apply H; right; exact Hb.
Qed.
Lemma keyed_all x l : (forall a, In a l -> key a = x) -> keyed x l = l.
Proof.
  induction l as [|a l IH]; intros H; [reflexivity|]. rewrite keyed_cons.
  rewrite (H a (or_introl eq_refl)), Reqb_refl, IH; [reflexivity|].
  intros b Hb; apply H; right; exact Hb.
Qed.
Lemma keyed_app x l m : keyed x (l ++ m) = keyed x l ++ keyed x m.
Proof. apply filter_app. Qed.

Lemma group_from_spec l : forall first acc,
  ascending (first :: l) -> (forall a, In a acc -> key a = key first) ->
  let gs := group_from key first acc l in
  let ks := map (fun g => key (fst g)) gs in
  NoDup ks /\ (forall x, In x ks -> key first <= x) /\
  (forall x, In x ks <-> In x (map key (first :: l))) /\
  (forall g, In g gs -> fst g :: snd g = keyed (key (fst g)) (first :: rev acc ++ l)).
Proof.
  induction l as [|y l IH]; intros first acc Hs Ha; cbn -[Reqb keyed].
  - repeat split.
    + constructor; [intros [] | constructor].
    + intros x [<-|[]]; lra.
    + tauto.
    + tauto.
    + intros g [<-|[]]; cbn [fst snd]. rewrite app_nil_r.
      rewrite keyed_cons, Reqb_refl. f_equal. symmetry; apply keyed_all.
      intros a Hin; apply in_rev in Hin; auto.
  - inversion Hs as [|? ? Hs' Hle]; subst.
    inversion Hs' as [|? ? Hs'' Hle']; subst.
    assert (Hfy : key first <= key y) by (rewrite Forall_forall in Hle; apply Hle; left; reflexivity).
    destruct (Req_EM_T (key first) (key y)) as [E|N].
    + assert (Hs1 : ascending (first :: l)).
      { constructor; [exact Hs''|]. rewrite Forall_forall in *. intros a Hin; apply Hle; right; exact Hin. }
      specialize (IH first (y :: acc) Hs1).
      assert (Ha' : forall a, In a (y :: acc) -> key a = key first) by (intros a [<-|H]; auto).
      specialize (IH Ha'). cbn -[Reqb keyed] in IH. destruct IH as (I1 & I2 & I3 & I4).
      split; [exact I1|]. split; [exact I2|]. split.
      * intros x. rewrite I3. cbn. split; [intros [H|H]; auto|]. intros [H|[H|H]]; auto. left; congruence.
      * intros g Hg. rewrite (I4 g Hg). rewrite <- !app_assoc. cbn. reflexivity.
    + assert (Hlt : key first < key y) by lra.
      specialize (IH y [] Hs'). cbn -[Reqb keyed] in IH.
      assert (Ha' : forall a : A, False -> key a = key y) by tauto.
      specialize (IH Ha'). destruct IH as (I1 & I2 & I3 & I4).
      split; [|split; [|split]].
      * cbn [map fst]. constructor; [|exact I1]. intros H. apply I2 in H. lra.
      * intros x [<-|H]; [cbn; lra|]. apply I2 in H; lra.
      * intros x. cbn. rewrite I3. cbn. tauto.
      * intros g [<-|Hg].
        -- cbn [fst snd]. rewrite keyed_cons, Reqb_refl. f_equal. rewrite keyed_app.
           rewrite (keyed_all _ (rev acc)) by (intros a H; apply in_rev in H; auto).
           rewrite (keyed_none _ (y :: l)); [rewrite app_nil_r; reflexivity|].
           intros a [<-|H]; [lra|]. rewrite Forall_forall in Hle'. specialize (Hle' a H). cbn in Hle'; lra.
        -- rewrite (I4 g Hg). cbn [rev app]. rewrite (keyed_cons _ first).
           assert (K : key y <= key (fst g)).
           { apply I2. apply in_map_iff. exists g; auto. }
           rewrite keyed_app. rewrite (keyed_none _ (rev acc)).
           2:{ intros a H; apply in_rev in H. rewrite (Ha a H). lra. }
           rewrite (Reqb_neq (key first)) by lra. reflexivity.
Qed.

(** A sum over the groups of an ascending list is a sum over its distinct keys. *)
Lemma group_by_sum (F : list A -> R) l : ascending l ->
  Rsum (map (fun g => F (fst g :: snd g)) (group_by key l)) =
  Rsum (map (fun x => F (keyed x l)) (nodup Req_EM_T (map key l))).
Proof.
  destruct l as [|first l]; intros Hs; [reflexivity|].
  destruct (group_from_spec l first [] Hs (fun a H => match H with end)) as (I1 & _ & I3 & I4).
  cbn [rev app] in I4. unfold group_by.
  set (gs := group_from key first [] l) in *.
  rewrite (Rsum_ext _ (fun g => (fun x => F (keyed x (first :: l))) (key (fst g)))).
  2:{ intros g Hg. rewrite (I4 g Hg). reflexivity. }
  rewrite <- (map_map (fun g => key (fst g)) (fun x => F (keyed x (first :: l)))).
  apply Rsum_perm, Permutation_map, NoDup_Permutation; [exact I1 | apply NoDup_nodup |].
  intros x. rewrite I3, nodup_In. reflexivity.
Qed.

(** The front of each group carries the key of its group. *)
Lemma group_by_front l g : ascending l -> In g (group_by key l) ->
  fst g :: snd g = keyed (key (fst g)) l /\ In (key (fst g)) (map key l).
Proof.
  destruct l as [|first l]; intros Hs Hg; [destruct Hg|].
  destruct (group_from_spec l first [] Hs (fun a H => match H with end)) as (_ & _ & I3 & I4).
  cbn [rev app] in I4. split; [apply I4; exact Hg|].
  apply I3. apply in_map_iff. exists g; auto.
Qed.
Lemma group_by_In l a : ascending l -> In a l <-> exists g, In g (group_by key l) /\ In a (fst g :: snd g).
Proof.
  destruct l as [|first l]; intros Hs; [cbn; split; [tauto | intros (g & [] & _)]|].
  destruct (group_from_spec l first [] Hs (fun a H => match H with end)) as (_ & _ & I3 & I4).
  cbn [rev app] in I4. split.
  - intros H. assert (K : In (key a) (map key (first :: l))) by (apply in_map; exact H).
    apply I3 in K. apply in_map_iff in K as (g & E & Hg). exists g; split; [exact Hg|].
    rewrite (I4 g Hg). apply filter_In. split; [exact H | apply Reqb_eq; auto].
  - intros (g & Hg & Ha). rewrite (I4 g Hg) in Ha. apply filter_In in Ha. tauto.
Qed.

Lemma keyed_perm x l m : Permutation l m -> Permutation (keyed x l) (keyed x m).
Proof.
  induction 1; rewrite ?keyed_cons; [constructor | | | eapply perm_trans; eauto].
  - destruct (Reqb _ _); [constructor|]; assumption.
  - destruct (Reqb _ _), (Reqb _ _); try constructor; apply Permutation_refl.
Qed.

(** What std::sort guarantees for the order of the keys. *)
Definition sorts (sort : list A -> list A) : Prop :=
  forall l, Permutation l (sort l) /\ ascending (sort l).

Fixpoint insert (a : A) (l : list A) : list A :=
  match l with
  | [] => [a]
  | b :: r => if Rle_lt_dec (key a) (key b) then a :: l else b :: insert a r
  end.
Definition insertion_sort (l : list A) : list A := fold_right insert [] l.
Lemma insert_perm a l : Permutation (a :: l) (insert a l).
Proof.
  induction l as [|b l IH]; cbn; [apply Permutation_refl|].
  destruct (Rle_lt_dec _ _); [apply Permutation_refl|].
  eapply perm_trans; [apply perm_swap | constructor; exact IH].
Qed.
Lemma insert_ascending a l : ascending l -> ascending (insert a l).
Proof.
  induction l as [|b l IH]; intros H; cbn; [repeat constructor|].
  inversion H as [|? ? H' F]; subst.
  destruct (Rle_lt_dec _ _) as [L|L].
  - constructor; [exact H|]. constructor; [exact L|].
    rewrite Forall_forall in *. intros c Hc. specialize (F c Hc). cbn in *; lra.
  - constructor; [apply IH; exact H'|]. rewrite Forall_forall in *. intros c Hc.
    apply Permutation_in with (l' := a :: l) in Hc; [|apply Permutation_sym, insert_perm].
    destruct Hc as [<-|Hc]; [lra | apply F; exact Hc].
Qed.
Lemma insertion_sorts : sorts insertion_sort.
Proof.
  intros l; induction l as [|a l [IH1 IH2]]; cbn; [split; [constructor | constructor]|].
  split; [|apply insert_ascending; exact IH2].
  eapply perm_trans; [constructor; exact IH1 | apply insert_perm].
Qed.
End Group.

Lemma nodup_perm {A} (dec : forall x y : A, {x = y} + {x <> y}) l m :
  Permutation l m -> Permutation (nodup dec l) (nodup dec m).
Proof.
  intros P. apply NoDup_Permutation; try apply NoDup_nodup.
  intros x. rewrite !nodup_In. split; apply Permutation_in; [exact P | apply Permutation_sym; exact P].
Qed.

(** Sums over distinct keys when the keys are an injective image. *)
Lemma nodup_inj_sum {A} (J : A -> Z) (h : Z -> R) (F : R -> R) (l : list A) :
  (forall a b, In a l -> In b l -> h (J a) = h (J b) -> J a = J b) ->
  Rsum (map F (nodup Req_EM_T (map (fun a => h (J a)) l))) =
  Rsum (map (fun j => F (h j)) (nodup Z.eq_dec (map J l))).
Proof.
  intros inj. rewrite <- (map_map h F). apply Rsum_perm, Permutation_map.
  apply NoDup_Permutation.
  - apply NoDup_nodup.
  - assert (H : forall j, In j (nodup Z.eq_dec (map J l)) -> exists a, In a l /\ J a = j).
    { intros j Hj. apply nodup_In, in_map_iff in Hj as (a & E & Hin). eauto. }
    pose proof (NoDup_nodup Z.eq_dec (map J l)) as N.
    induction (nodup Z.eq_dec (map J l)) as [|j js IH]; cbn; [constructor|].
    inversion N; subst. constructor.
    + intros Hin. apply in_map_iff in Hin as (j' & E & Hj').
      destruct (H j (or_introl eq_refl)) as (a & Ha & <-).
      destruct (H j' (or_intror Hj')) as (b & Hb & <-).
      rewrite <- (inj b a Hb Ha E) in *. contradiction.
    + apply IH; [intros k Hk; apply H; right; exact Hk | assumption].
  - intros x. rewrite nodup_In, !in_map_iff. split.
    + intros (a & <- & Ha). exists (J a); split; [reflexivity|]. apply nodup_In, in_map; exact Ha.
    + intros (j & <- & Hj). apply nodup_In, in_map_iff in Hj as (a & <- & Ha). exists a; auto.
Qed.
