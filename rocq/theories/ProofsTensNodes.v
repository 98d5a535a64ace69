(** The node lists of the Regge and Hellan-Herrmann-Johnson elements. *)
From Coq Require Import List Lia Arith.
From Verif Require Import Base SpecConcat ModelIndex SpecIndex ModelCell SpecCell ModelFam SpecFam ProofsFam ProofsFam2 ProofsFam3 ProofsFam4 PropsFam ProofsLagNodes.
Import ListNotations.

Section TN.
  Variable K : fieldT.
  Hypothesis HK : char0 K.
  Definition regge_nodes (c : cell) (degree : nat) : list (node K) :=
    flat_map (fun d => flat_map (regge_fun c degree d) (range 0 (num c d))) (range 1 (spatial_dimension c + 1)).
  Lemma regge_nodes_ok c degree : simplex c -> 2 <= spatial_dimension c -> exists el, Regge K c degree = Ok el /\ el_nodes K el = regge_nodes c degree.
  Proof.
    intros Hc Hd. unfold Regge, sym_members, on_members. rewrite dimension_binom by assumption. cbn [bind]. unfold regge_nodes.
    assert (H3 : spatial_dimension c = 2 \/ spatial_dimension c = 3) by (destruct c; try contradiction; cbn in *; lia).
    assert (V : forall d st, snd (snd (regge_dofs K c d degree st)) = snd st ++ flat_map (regge_fun (K:=K) c degree d) (range 0 (num c d)))
      by (intros d st; apply (visit_nodes (K:=K))).
    destruct H3 as [-> | ->]; cbn [Nat.ltb Nat.leb orb Nat.eqb Nat.add].
    - pose proof (V 1 (0, [])) as V1.
      destruct (regge_dofs K c 1 degree (0, [])) as [ids1 st1].
      pose proof (V 2 st1) as V2.
      destruct (regge_dofs K c 2 degree st1) as [ids2 st2]. eexists. split; [reflexivity|]. cbn [el_nodes snd] in *.
      rewrite V2, V1. cbn [range seq Nat.sub flat_map app]. now rewrite app_nil_r.
    - pose proof (V 1 (0, [])) as V1.
      destruct (regge_dofs K c 1 degree (0, [])) as [ids1 st1].
      pose proof (V 2 st1) as V2.
      destruct (regge_dofs K c 2 degree st1) as [ids2 st2].
      pose proof (V 3 st2) as V3.
      destruct (regge_dofs K c 3 degree st2) as [ids3 st3]. eexists. split; [reflexivity|]. cbn [el_nodes snd] in *.
      rewrite V3, V2, V1. cbn [range seq Nat.sub flat_map app]. now rewrite app_nil_r, app_assoc.
  Qed.
  Lemma hhj_nodes_ok c degree : simplex c -> spatial_dimension c = 2 -> exists el, HellanHerrmannJohnson K c degree = Ok el /\
    el_nodes K el = flat_map (fun e => map (Moment K MNormalNormal 1 e) (range 0 (length (make_points K c 1 e (degree + 2))))) (range 0 3) ++
      flat_map (fun vw => map (InnerProduct K (fst vw) (snd vw)) (make_points K c 2 0 (degree + 2))) (sym_basis K).
  Proof.
    intros Hc Hd. unfold HellanHerrmannJohnson, sym_members, on_members. rewrite dimension_binom by assumption. rewrite Hd. cbn [bind Nat.eqb negb].
    set (f := fun e => map (Moment K MNormalNormal 1 e) (range 0 (length (make_points K c 1 e (degree + 2))))).
    pose proof (visit_nodes (K:=K) f (range 0 3) (0, [])) as V.
    destruct (visit K f (range 0 3) (0, [])) as [ids1 st]. eexists. split; [reflexivity|]. cbn [el_nodes snd app] in *. rewrite V. reflexivity.
  Qed.
End TN.
