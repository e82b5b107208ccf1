(** Enumeration of all trees with n vertices. *)
From Coq Require Import Reals.
From Verif Require Import Model.Base Spec.Sums Spec.Trees.

Definition fsize (f : list tree) : nat := fold_right (fun u n => (vertices u + n)%nat) O f.

Fixpoint forests (fuel n : nat) : list (list tree) :=
  match fuel with
  | O => [[]]
  | S fuel' =>
      match n with
      | O => [[]]
      | S n' => flat_map (fun k => flat_map (fun f => map (fun g => Node f :: g) (forests fuel' (n' - k)))
                                            (forests fuel' k)) (seq 0 (S n'))
      end
  end.
Definition trees (n : nat) : list tree := match n with O => [] | S n' => map Node (forests n' n') end.
Definition trees_upto (p : nat) : list tree := flat_map trees (seq 1 p).

Lemma forests_complete fuel f : (fsize f <= fuel)%nat -> In f (forests fuel (fsize f)).
Proof.
  revert f. induction fuel as [|fuel IH]; intros f Hf.
  - destruct f as [|[ch] f]; [left; reflexivity|]. simpl in Hf. lia.
  - destruct f as [|[ch] f]; [simpl; left; reflexivity|].
    change (fsize (Node ch :: f)) with (S (fsize ch + fsize f)) in * . cbn [forests].
    apply in_flat_map. exists (fsize ch). split; [apply in_seq; lia|].
    apply in_flat_map. exists ch. split; [apply IH; lia|].
    apply in_map_iff. exists f. split; [reflexivity|].
    replace (fsize ch + fsize f - fsize ch)%nat with (fsize f) by lia. apply IH. lia.
Qed.

Lemma trees_complete t : In t (trees (vertices t)).
Proof.
  destruct t as [ch]. change (vertices (Node ch)) with (S (fsize ch)). cbn [trees].
  apply in_map. apply forests_complete. lia.
Qed.

Lemma trees_upto_complete p t : (vertices t <= p)%nat -> In t (trees_upto p).
Proof.
  intros H. apply in_flat_map. exists (vertices t). split; [|apply trees_complete].
  apply in_seq. destruct t; simpl in *; lia.
Qed.

(** induction on trees *)
Section TreeInd.
  Variable P : tree -> Prop.
  Hypothesis HN : forall ch, Forall P ch -> P (Node ch).
  Fixpoint tree_ind' (t : tree) : P t :=
    match t with
    | Node ch => HN ch ((fix go (l : list tree) : Forall P l :=
                           match l with [] => Forall_nil P | u :: l' => Forall_cons u (tree_ind' u) (go l') end) ch)
    end.
End TreeInd.
