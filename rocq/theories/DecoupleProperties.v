(** Channels of a spin group that share no resonance: C61. *)
From Coq Require Import Reals Lra.
From mathcomp Require Import all_ssreflect all_algebra.
From Verif Require Import Cplx RMatrixModel RMatrixSpec RMatrixProofs RMatrixCodeProofs DecoupleSpec DecoupleProofs DecoupleTheorems.
Set Implicit Arguments.
Unset Strict Implicit.
Unset Printing Implicit Defensive.
Local Open Scope ring_scope.

(** * C61: if no resonance has a width both in a channel of [idx] and in another channel, the
    cross sections for a channel of [idx] are those of the channels of [idx] alone, whatever the
    calculators have stored before; nothing goes to the other channels. *)
Theorem C61_decoupled b E table vs n idx (s s1 : cache n) A (s' : cache (size idx)) :
  sized n table -> all (fun i => i < n)%N idx -> uniq idx -> separate idx table ->
  rl_call b E table vs s = Some (s1, A) ->
  exists s2 A', rl_call b E [seq only_width idx r | r <- table] (only idx vs) s' = Some (s2, A') /\
  forall factor (i : 'I_(size idx)) (c : 'I_n), (c : nat) = nth 0%N idx i ->
  (forall j, (j < size idx)%N ->
     nth 0%re (crossSections factor vs A c) (nth 0%N idx j) = nth 0%re (crossSections factor (only idx vs) A' i) j) /\
  (forall k, (k < n)%N -> k \notin idx -> nth 0%re (crossSections factor vs A c) k = 0%re) /\
  nth 0%re (crossSections factor vs A c) n = nth 0%re (crossSections factor (only idx vs) A' i) (size idx).
Proof. exact (@decoupled b E table vs n idx s s1 A s'). Qed.
Print Assumptions C61_decoupled.

(** Two elastic channels and a fission channel; the first resonance is seen in the first and the
    third channel, the second resonance in the second. *)
Example C61_case (s : cache 3) :
  let v := Values 1%re 0%re 0%re 0%re 0%re false in
  let table := [:: Resonance 3%re [:: 1%re; 0%re; 2%re] 1%re; Resonance 5%re [:: 0%re; 2%re; 0%re] 1%re] in
  sized 3 table /\ separate [:: 0%N; 2%N] table /\ exists s1 A, rl_call ShiftFactor 1%re table [:: v; v; v] s = Some (s1, A).
Proof.
  move=> v table; split; [|split].
  - by move=> r /= [<-|[<-|//]].
  - by move=> r i j /= [<-|[<-|//]]; rewrite !inE => /orP [] /eqP -> /norP [] ;
      case: j => [|[|[|j]]] //= _ _; rewrite ?nth_nil; by [left | right].
  - have [|||s1 [A [H _]]] := @rl_call_ok 3 ShiftFactor 1%re table [:: v; v; v] s; last by exists s1, A.
    + by move=> r /= [<-|[<-|//]].
    + move=> [[|[|[|i]]] Hi] //=; rewrite /val_of /=; split; [lra | right; left; lra | lra | right; left; lra | lra | right; left; lra].
    + by move=> r /= [<-|[<-|//]] /=; left; lra.
Qed.
