(** Independent specification of topology queries. *)
From Verif Require Import Base ModelCell.

(** Dictionary keys are distinct, as in any Python dict. *)
Definition proper_dict {V} (t : dict V) : Prop :=
  NoDup (keys t) /\ forall d es, In (d, es) t -> NoDup (keys es).

(** entity [(d', e')] of [t] lies in the closure of a vertex set *)
Definition contained (t : topo) (v : list nat) (x : dimT * nat) : Prop :=
  exists v', lookup t (fst x) (snd x) = Some v' /\ incl v' v.

(** contained entities never have larger dimension *)
Definition graded (t : topo) : Prop :=
  forall d e v d' e', lookup t d e = Some v -> contained t v (d', e') -> dleb d' d = true.

(** every entity of the topology has an entry in the dof dictionary *)
Definition covers (t : topo) (ids : dict (list nat)) : Prop :=
  forall d e v, lookup t d e = Some v -> exists l, lookup ids d e = Some l.

Definition dofs_on (ids : dict (list nat)) (x : dimT * nat) : list nat :=
  option_list (lookup ids (fst x) (snd x)).
