(** Evaluation of a spin group and of a compound system.
    Paths are relative to /repo/src/resonanceReconstruction/rmatrix. *)
From Coq Require Import Reals String.
From mathcomp Require Import all_ssreflect all_algebra.
From Verif Require Import Outcome KinematicsModel CoulombModel Cplx RMatrixModel ChannelModel.
Set Implicit Arguments.
Unset Strict Implicit.
Unset Printing Implicit Defensive.

(** Keys of the result maps *)
Definition reaction_eqb (a b : reactionID) : bool :=
  match a, b with
  | Elastic p r, Elastic p' r' => String.eqb p p' && String.eqb r r'
  | Transfer f t, Transfer f' t' => String.eqb f f' && String.eqb t t'
  | _, _ => false
  end.
Lemma reaction_eqP : Equality.axiom reaction_eqb.
Proof.
  move=> [p r|f t] [p' r'|f' t'] /=; try by constructor.
  - by apply: (iffP andP) => [[/String.eqb_eq -> /String.eqb_eq ->] // | [-> ->]]; rewrite !String.eqb_refl.
  - by apply: (iffP andP) => [[/String.eqb_eq -> /String.eqb_eq ->] // | [-> ->]]; rewrite !String.eqb_refl.
Qed.
Canonical reaction_eqMixin := EqMixin reaction_eqP.
Canonical reaction_eqType := Eval hnf in EqType reactionID reaction_eqMixin.
Lemma string_eqP : Equality.axiom String.eqb.
Proof. by move=> a b; apply: (iffP idP) => [/String.eqb_eq // | ->]; rewrite String.eqb_refl. Qed.
Canonical string_eqMixin := EqMixin string_eqP.
Canonical string_eqType := Eval hnf in EqType string string_eqMixin.

Definition reaction_map := reactionID -> option R.
Definition element_map := string -> option cx.

Section Evaluate.
Variables (hbar epsilon0 : R) (cwf : nat -> R -> R -> outcome coulomb) (b : boundary_option).

Definition gsize (g : group) : nat := size (g_channels g).

(** The calculators' stored matrices belong to the group object; a group starts with
    whatever its constructor left there. *)
Definition groupValues (g : group) (energy : R) : outcome (option (seq values)) :=
  Outcome.omap (@all_some _) (mapM (fun c => channelValues hbar epsilon0 cwf b c energy) (g_channels g)).

(** incident_ holds indices; an index beyond the channels would be undefined behaviour, and
    does not occur (SpinGroupProofs) *)
Definition incident_ord (g : group) : seq 'I_(gsize g) := pmap insub (g_incident g).

(** SpinGroup/src/evaluate.hpp:7-108.  [Ok None]: some number is not finite. *)
Definition evaluateGroup (g : group) (energy : R) (s : cache (gsize g)) (result : reaction_map)
    : outcome (option (cache (gsize g) * reaction_map)) :=
  do ovs <- groupValues g energy ;
  do first <- at_or_ub (g_incident g) 0 "front() of an empty vector" ;
  do c <- at_or_ub (g_channels g) first "index out of bounds" ;
  match ovs, channelFactor hbar c energy with
  | Some vs, Some factor =>
      match rl_call b energy (t_resonances (g_table g)) vs s with
      | Some (s', rl) =>
          Ok (Some (s', processIncidentChannels (g_reactions g) factor vs rl (incident_ord g) result))
      | None => Ok None
      end
  | _, _ => Ok None
  end.

(** The key of SpinGroup/src/evaluateTMatrix.hpp:49-54 *)
Definition channel_name (g : group) (i : nat) : string :=
  nth EmptyString (List.map c_id (g_channels g)) i.
Definition element_key (g : group) (i j : 'I_(gsize g)) : string :=
  (channel_name g i ++ "->" ++ channel_name g j)%string.

(** SpinGroup/src/evaluateTMatrix.hpp:12-66.  The phase shifts are not asked for. *)
Definition groupValuesT (g : group) (energy : R) : outcome (option (seq values)) :=
  Outcome.omap (@all_some _) (mapM (fun c =>
    do p <- channelPenetrability hbar epsilon0 cwf c energy ;
    do s <- match b with Constant => channelShiftFactor hbar epsilon0 cwf c energy
            | ShiftFactor => Ok (Some 0%re) end ;
    match p, s with
    | Some p, Some s => Ok (Some (Values p s (c_boundary c) 0%re 0%re (channelBelowThreshold c energy)))
    | _, _ => Ok None
    end) (g_channels g)).
Definition evaluateTGroup (g : group) (energy : R) (s : cache (gsize g)) (result : element_map)
    : outcome (option (cache (gsize g) * element_map)) :=
  do ovs <- groupValuesT g energy ;
  match ovs with
  | None => Ok None
  | Some vs =>
      match rl_call b energy (t_resonances (g_table g)) vs s with
      | Some (s', rl) => Ok (Some (s', processChannels (@element_key g) vs rl result))
      | None => Ok None
      end
  end.

(** A group together with its stored matrices, CompoundSystem.hpp:9 *)
Definition object := {g : group & cache (gsize g)}.

(** CompoundSystem/src/evaluate.hpp:7-13.  A number that is not finite ends the evaluation
    here; in the code it ends up in the map. *)
Fixpoint evaluateSystem (gs : seq object) (energy : R) (result : reaction_map)
    : outcome (option (seq object * reaction_map)) :=
  match gs with
  | [::] => Ok (Some ([::], result))
  | existT g s :: r =>
      do o <- evaluateGroup energy s result ;
      match o with
      | None => Ok None
      | Some (s', m) =>
          do o <- evaluateSystem r energy m ;
          match o with
          | None => Ok None
          | Some (r', m') => Ok (Some (existT (fun g => cache (gsize g)) g s' :: r', m'))
          end
      end
  end.

(** CompoundSystem/src/evaluateTMatrix.hpp:7-15 *)
Fixpoint evaluateTSystem (gs : seq object) (energy : R) (result : element_map)
    : outcome (option (seq object * element_map)) :=
  match gs with
  | [::] => Ok (Some ([::], result))
  | existT g s :: r =>
      do o <- evaluateTGroup energy s result ;
      match o with
      | None => Ok None
      | Some (s', m) =>
          do o <- evaluateTSystem r energy m ;
          match o with
          | None => Ok None
          | Some (r', m') => Ok (Some (existT (fun g => cache (gsize g)) g s' :: r', m'))
          end
      end
  end.
End Evaluate.
