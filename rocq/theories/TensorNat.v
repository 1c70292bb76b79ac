(** The tensor helpers commute with any map that respects zero, sums and
    products; in particular computing with symbolic tensors and then evaluating
    is the same as evaluating first. *)
From Coq Require Import List Arith Bool Lia.
Import ListNotations.
From Verif Require Import PyBase TensorModel.

Section Hom.
  Context {A B : Type} `{SA : Sig A} `{SB : Sig B} (h : A -> B).
  Hypothesis h0 : h zero = zero.
  Hypothesis ha : forall a b, h (add a b) = add (h a) (h b).
  Hypothesis hm : forall a b, h (mul a b) = mul (h a) (h b).

  Definition under (t : tensor A) (u : tensor B) : Prop :=
    shape u = shape t /\ forall i, at_ u i = h (at_ t i).
  Definition under_res (x : res (tensor A)) (y : res (tensor B)) : Prop :=
    match x, y with
    | Ok t, Ok u => under t u
    | Raise e, Raise e' => e = e'
    | _, _ => False
    end.

  Lemma under_tmap t : under t (tmap h t).
  Proof. split; auto. Qed.

  Lemma h_sumv l : h (sumv l) = sumv (map h l).
  Proof. induction l as [|a l IH]; simpl; auto. rewrite ha, IH. reflexivity. Qed.

  Lemma trace_under t u p q : under t u -> under_res (trace t p q) (trace u p q).
  Proof.
    intros [Sh H]. unfold trace, rank. rewrite Sh.
    destruct ((p <? length (shape t)) && (q <? length (shape t)) && negb (p =? q)); simpl; auto.
    split; simpl; [reflexivity|]. intros o. rewrite h_sumv, map_map. f_equal. apply map_ext. intros v. apply H.
  Qed.

  Lemma outer_under t u t' u' : under t u -> under t' u' -> under (outer t t') (outer u u').
  Proof.
    intros [Sh H] [Sh' H']. unfold outer, rank. rewrite Sh, Sh'. split; simpl; [reflexivity|].
    intros i. rewrite H, H', hm. reflexivity.
  Qed.

  Lemma product_under ts : forall us, Forall2 under ts us -> under_res (tensor_product ts) (tensor_product us).
  Proof.
    induction ts as [|t ts IH]; intros us F; inversion F as [|? u ? us' H F']; subst; simpl; auto.
    specialize (IH _ F').
    destruct ts as [|t2 ts]; inversion F' as [|? u2 ? us2 H2 F2]; subst.
    - simpl. auto.
    - destruct ts as [|t3 ts]; inversion F2 as [|? u3 ? us3 H3 F3]; subst.
      + simpl. apply outer_under; auto.
      + destruct (tensor_product (t2 :: t3 :: ts)), (tensor_product (u2 :: u3 :: us3)); simpl in IH |- *;
          try contradiction; auto. apply outer_under; auto.
  Qed.

  Lemma loop_under pairs : forall t u idx, under t u -> under_res (contract_loop t idx pairs) (contract_loop u idx pairs).
  Proof.
    induction pairs as [|pr pairs IH]; intros t u idx H; simpl; auto.
    destruct (mapM (fun x => list_index x idx) pr) as [[|p [|q ?]]|e]; simpl; auto.
    pose proof (trace_under t u p q H) as T.
    destruct (trace t p q), (trace u p q); simpl in T |- *; try contradiction; auto.
    destruct (fold_left (fun acc x => do l <- acc; list_remove x l) pr (Ok idx)); simpl; auto.
  Qed.

  Lemma contract_under t u pairs : under t u -> under_res (tensor_contract t pairs) (tensor_contract u pairs).
  Proof. intros H. unfold tensor_contract, rank. rewrite (proj1 H). apply loop_under; auto. Qed.

  Lemma transform_under t u R S : under t u -> under R S -> under_res (transform t R) (transform u S).
  Proof.
    intros Ht HR. unfold transform, rank. rewrite (proj1 Ht).
    assert (F : Forall2 under (repeat R (length (shape t)) ++ [t]) (repeat S (length (shape t)) ++ [u])).
    { apply Forall2_app; [|constructor; auto]. induction (length (shape t)); simpl; constructor; auto. }
    pose proof (product_under _ _ F) as P.
    destruct (tensor_product _), (tensor_product _); simpl in P |- *; try contradiction; auto.
    apply contract_under; auto.
  Qed.

  Lemma product_contract_under ts us pairs : Forall2 under ts us ->
    under_res (do p <- tensor_product ts; tensor_contract p pairs)
              (do p <- tensor_product us; tensor_contract p pairs).
  Proof.
    intros F. pose proof (product_under _ _ F) as P.
    destruct (tensor_product ts), (tensor_product us); simpl in P |- *; try contradiction; auto.
    apply contract_under; auto.
  Qed.
End Hom.
