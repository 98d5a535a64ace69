(** The node lists of the Morley and Argyris dual sets. *)
From Verif Require Import Base ModelIndex ModelCell SpecCell ModelConcat SpecConcat ModelFam SpecFam ProofsFam ProofsLagNodes.

Section Nodes.
  Context {K : fieldT}.
  Notation pe := (PointEvaluation K).
  Notation pnd := (PointNormalDerivative K).
  Definition edge_nodes (c : cell) (q e : nat) : list (node K) :=
    map (pnd e) (make_points K c 1 e (q - 3)) ++ (if Nat.ltb 5 q then map pe (make_points K c 1 e (q - 4)) else []).
  Lemma argyris_edges_nodes c q es : forall st, snd (snd (argyris_edges K c q es st)) = snd st ++ flat_map (edge_nodes c q) es.
  Proof.
    induction es as [|e es IH]; intros [cur nodes]; cbn -[Nat.ltb make_points Nat.sub]; [now rewrite app_nil_r|].
    unfold edge_nodes at 1. destruct (Nat.ltb 5 q) eqn:E5; cbn -[Nat.ltb make_points Nat.sub]; rewrite ?E5.
    - match goal with |- context [argyris_edges K c q es ?st] => specialize (IH st); destruct (argyris_edges K c q es st) as [rest st'] end.
      cbn -[make_points Nat.sub] in *. rewrite IH. now rewrite <- !app_assoc.
    - match goal with |- context [argyris_edges K c q es ?st] => specialize (IH st); destruct (argyris_edges K c q es st) as [rest st'] end.
      cbn -[make_points Nat.sub] in *. rewrite IH. now rewrite <- !app_assoc.
  Qed.
  Definition argyris_list (c : cell) (q : nat) : list (node K) :=
    flat_map (jet2 K c) [0; 1; 2] ++ flat_map (edge_nodes c q) [0; 1; 2] ++
    (if Nat.ltb 5 q then map pe (make_points K c 2 0 (q - 3)) else []).
  Lemma argyris_nodes c q : is_triangle c = true -> exists el, Argyris K c q = Ok el /\ el_nodes K el = argyris_list c q.
  Proof.
    intros Hc. unfold Argyris.
    assert (E : exists m, on_members c q 1 = Ok m) by (destruct c; try discriminate; eexists; reflexivity).
    destruct E as (m & ->). cbn [bind]. rewrite Hc. cbn [negb].
    assert (E0 : keys (sort_items (top c 0)) = [0; 1; 2]) by (destruct c; try discriminate; reflexivity).
    assert (E1 : keys (sort_items (top c 1)) = [0; 1; 2]) by (destruct c; try discriminate; reflexivity).
    rewrite E0, E1. pose proof (visit_nodes (jet2 K c) [0; 1; 2] (0, [])) as H0.
    destruct (visit K (jet2 K c) [0; 1; 2] (0, [])) as [ids0 st0].
    pose proof (argyris_edges_nodes c q [0; 1; 2] st0) as H1.
    destruct (argyris_edges K c q [0; 1; 2] st0) as [ids1 [cur nodes]]. cbn [snd app] in H0, H1. subst nodes. rewrite H0.
    unfold argyris_list. destruct (Nat.ltb 5 q); eexists; (split; [reflexivity|]); cbn [el_nodes].
    - now rewrite <- app_assoc.
    - now rewrite app_nil_r.
  Qed.
  Definition mid_nodes (c : cell) (e : nat) : list (node K) := map (pnd e) (first (make_points K c 1 e 2)).
  Lemma morley_nodes c : is_triangle c = true -> exists el, Morley K c = Ok el /\
    el_nodes K el = flat_map (fun v => [pe (vertex K c v)]) [0; 1; 2] ++ flat_map (mid_nodes c) [0; 1; 2].
  Proof. destruct c; try discriminate; intros _; eexists; (split; [reflexivity|]); reflexivity. Qed.
  Lemma quintic_nodes c : is_triangle c = true -> exists el, QuinticArgyris K c = Ok el /\
    el_nodes K el = flat_map (jet2 K c) [0; 1; 2] ++ flat_map (mid_nodes c) [0; 1; 2].
  Proof. destruct c; try discriminate; intros _; eexists; (split; [reflexivity|]); reflexivity. Qed.
  (** the quintic element has the nodes of the Argyris element of degree 5 *)
  Lemma quintic_argyris5 c : is_triangle c = true -> exists el, QuinticArgyris K c = Ok el /\ el_nodes K el = argyris_list c 5.
  Proof. destruct c; try discriminate; intros _; eexists; (split; [reflexivity|]); reflexivity. Qed.
End Nodes.
