(** Every cell has one entity of its own dimension. *)
From Coq Require Import Permutation.
From Verif Require Import Base ModelCell SpecCell SpecConcat ProofsCell ProofsTopo ProofsFam ModelQuadElIds.

Lemma top_tp cs : Forall (fun c => exists vs, dlookup (get_dimension c) (topology c) = Some [(0, vs)]) cs ->
  Forall2 (fun t d => In d (keys t)) (map topology cs) (map get_dimension cs) /\
  exists vss, map (map snd) (sel (map topology cs) (map get_dimension cs)) = map (fun v : list nat => [v]) vss.
Proof.
  induction 1 as [|c cs (vs & E) H (IH1 & vss & IH2)]; cbn.
  - split; [constructor|]. now exists [].
  - split.
    + constructor; [|exact IH1]. apply (in_map fst) with (x := (get_dimension c, [(0, vs)])). now apply dlookup_weak.
    + exists (vs :: vss). cbn. unfold sel in *. cbn. rewrite E. cbn. f_equal. exact IH2.
Qed.
Lemma cart_singletons {A} (l : list A) : cart (map (fun v => [v]) l) = [l].
Proof. induction l as [|x l IH]; cbn; [reflexivity|]. now rewrite IH. Qed.
Lemma top_entity c : exists vs, dlookup (get_dimension c) (topology c) = Some [(0, vs)].
Proof.
  induction c as [c Hc|cs IH] using cell_ind'.
  - destruct c; try (eexists; reflexivity). exfalso; eapply Hc; reflexivity.
  - destruct (top_tp cs IH) as (H1 & vss & H2). cbn [topology get_dimension].
    rewrite (tp_dlookup _ (map num_vertices cs)).
    + rewrite H2, cart_singletons. cbn. eexists; reflexivity.
    + clear. induction cs; cbn; constructor; auto using good_cell.
    + exact H1.
Qed.

Lemma deqb_refl d : deqb d d = true. Proof. now apply deqb_eq. Qed.
Lemma qe_dlookup c n d : dlookup d (qe_entity_dofs c n) =
  option_map (fun es : ents (list nat) => if deqb d (get_dimension c) then [(0, range 0 n)] else map (fun '(e, _) => (e, [])) es) (dlookup d (topology c)).
Proof.
  unfold qe_entity_dofs. induction (topology c) as [|[d' es] t IH]; [reflexivity|]. cbn [map dlookup].
  destruct (deqb d d') eqn:E; [|exact IH]. apply deqb_eq in E as ->. reflexivity.
Qed.
Lemma elookup_empty (es : ents (list nat)) e : elookup e (map (fun '(e, _) => (e, [])) es) = option_map (fun _ => @nil nat) (elookup e es).
Proof. induction es as [|[e' v] es IH]; cbn; [reflexivity|]. destruct (Nat.eqb e e'); [reflexivity|exact IH]. Qed.

Lemma qe_on c n x : dofs_on (qe_entity_dofs c n) x =
  if deqb (fst x) (get_dimension c) && Nat.eqb (snd x) 0 then seq 0 n else [].
Proof.
  destruct x as [d e]. unfold dofs_on, lookup. cbn [fst snd]. rewrite qe_dlookup.
  destruct (deqb d (get_dimension c)) eqn:E.
  - apply deqb_eq in E as ->. destruct (top_entity c) as (vs & ->). cbn. destruct (Nat.eqb_spec e 0); cbn; [|reflexivity].
    unfold range. now rewrite Nat.sub_0_r.
  - destruct (dlookup d (topology c)) as [es|]; cbn; [|reflexivity]. rewrite elookup_empty. now destruct (elookup e es).
Qed.
Lemma qe_same c n : same_entities (qe_entity_dofs c n) (topology c).
Proof.
  intros d e. unfold lookup. rewrite qe_dlookup. destruct (deqb d (get_dimension c)) eqn:E.
  - apply deqb_eq in E as ->. destruct (top_entity c) as (vs & ->). cbn. destruct (Nat.eqb_spec e 0); easy.
  - destruct (dlookup d (topology c)) as [es|]; cbn; [|easy]. rewrite elookup_empty. now destruct (elookup e es).
Qed.
Lemma flat_empty (es : ents (list nat)) : flat_map snd (map (fun '(e, _) => (e, @nil nat)) es) = [].
Proof. induction es as [|[e v] es IH]; cbn; auto. Qed.
Lemma qe_partition c n : partitions (qe_entity_dofs c n) n.
Proof.
  unfold partitions, all_dofs. replace (flat_map _ _) with (seq 0 n); [reflexivity|]. symmetry.
  destruct (top_entity c) as (vs & E). destruct (good_cell c) as (ND & _). unfold qe_entity_dofs.
  revert ND E. induction (topology c) as [|[d es] t IH]; [discriminate|]. cbn [keys map fst dlookup flat_map].
  intros ND E. inversion ND as [|? ? Hn ND']; subst. destruct (deqb (get_dimension c) d) eqn:D.
  - apply deqb_eq in D as <-. rewrite deqb_refl. injection E as ->. cbn. unfold range. rewrite Nat.sub_0_r, !app_nil_r.
    assert (G : flat_map (fun '(_, es) => flat_map snd es) (map (fun '(d, es) => (d, if deqb d (get_dimension c) then [(0, seq 0 n)]
                else map (fun '(e, _) => (e, [])) es)) t) = []).
    { clear -Hn. induction t as [|[d es] t IH]; cbn; [reflexivity|]. rewrite IH by (intros H; apply Hn; right; exact H).
      destruct (deqb d (get_dimension c)) eqn:D; [|now rewrite flat_empty]. exfalso. apply Hn. left. now apply deqb_eq in D. }
    rewrite G. apply app_nil_r.
  - rewrite IH by assumption. destruct (deqb d (get_dimension c)) eqn:D'.
    + apply deqb_eq in D' as ->. now rewrite deqb_refl in D.
    + now rewrite flat_empty.
Qed.
