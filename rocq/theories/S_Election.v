(** Specification of election tables, independent of ElectionResults. *)
From Coq Require Import List Bool Arith ZArith QArith.
From Verif Require Import Base.
Import ListNotations.

Section Spec.
  Context {K P : Type} {EK : EqB K} {EP : EqB P}.

  (** The votes for party [c] in district [r] (0 if the table has no entry). *)
  Definition vote (counts : dict K (dict P Q)) (c : K) (r : P) : Q :=
    match dget counts c with
    | Some d => match dget d r with Some v => v | None => 0%Q end
    | None => 0%Q
    end.
  (** A table with an entry for every party and every
      district. *)
  Definition complete (parties : list K) (regions : list P) (counts : dict K (dict P Q)) : Prop :=
    NoDup parties /\ NoDup regions /\
    forall c, In c parties -> exists d, dget counts c = Some d /\
      forall r, In r regions -> exists v, dget d r = Some v.
  Definition nonnegative (parties : list K) (regions : list P) (counts : dict K (dict P Q)) : Prop :=
    forall c r, In c parties -> In r regions -> (0 <= vote counts c r)%Q.
  (** All votes cast in a district. *)
  Definition turnout (parties : list K) (counts : dict K (dict P Q)) (r : P) : Q :=
    fold_right Qplus 0%Q (map (fun c => vote counts c r) parties).
  (** All votes for a party; all votes cast. *)
  Definition party_total (regions : list P) (counts : dict K (dict P Q)) (c : K) : Q :=
    fold_right Qplus 0%Q (map (vote counts c) regions).
  Definition all_votes (parties : list K) (regions : list P) (counts : dict K (dict P Q)) : Q :=
    fold_right Qplus 0%Q (map (turnout parties counts) regions).
  (** Party [c] has strictly more votes than every other party. *)
  Definition beats_others (parties : list K) (counts : dict K (dict P Q)) (c : K) (r : P) : Prop :=
    forall o, In o parties -> o <> c -> (vote counts o r < vote counts c r)%Q.
End Spec.
