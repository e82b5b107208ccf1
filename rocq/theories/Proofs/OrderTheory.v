(** The order of a Runge-Kutta step: the order conditions of all trees with at most p vertices give a local error of h^(p+1),
    for right-hand sides with bounded derivatives of order up to p near the solution.  (Butcher series; the sums run over
    all ordered trees of bounded height, so that no truncation and no symmetry coefficients are needed.) *)
From Coq Require Import Reals Lra FunctionalExtensionality.
From Coquelicot Require Import Coquelicot.
From Verif Require Import Model.Base Spec.Sums Spec.Trees Proofs.SumsProofs Proofs.TreesProofs.
Local Open Scope R_scope.

Notation vec := (nat -> R).

(** * Sums over lists *)
Fixpoint lsum {A} (f : A -> R) (l : list A) : R := match l with [] => 0 | a :: l => f a + lsum f l end.

Lemma lsum_app {A} (f : A -> R) l1 l2 : lsum f (l1 ++ l2) = lsum f l1 + lsum f l2.
Proof. induction l1; simpl; lra. Qed.
Lemma lsum_ext {A} (f g : A -> R) l : (forall a, In a l -> f a = g a) -> lsum f l = lsum g l.
Proof. induction l; simpl; intros Hx; [reflexivity|]. rewrite Hx by auto. rewrite IHl; [reflexivity|]. intros; apply Hx; auto. Qed.
Lemma lsum_map {A B} (f : B -> R) (g : A -> B) l : lsum f (map g l) = lsum (fun a => f (g a)) l.
Proof. induction l; simpl; congruence. Qed.
Lemma lsum_flat_map {A B} (f : B -> R) (g : A -> list B) l : lsum f (flat_map g l) = lsum (fun a => lsum f (g a)) l.
Proof. induction l; simpl; [reflexivity|]. rewrite lsum_app. congruence. Qed.
Lemma lsum_scal {A} (f : A -> R) k l : lsum (fun a => k * f a) l = k * lsum f l.
Proof. induction l; simpl; [lra|]. rewrite IHl. ring. Qed.
Lemma lsum_minus {A} (f g : A -> R) l : lsum (fun a => f a - g a) l = lsum f l - lsum g l.
Proof. induction l; simpl; lra. Qed.
Lemma lsum_Rsum {A} n (f : nat -> A -> R) l : Rsum n (fun i => lsum (f i) l) = lsum (fun a => Rsum n (fun i => f i a)) l.
Proof.
  induction l; simpl; [apply Rsum_0; reflexivity|]. rewrite Rsum_plus, IHl. reflexivity.
Qed.
Lemma lsum_seq n (f : nat -> R) : lsum f (seq 0 n) = Rsum n f.
Proof.
  induction n; [reflexivity|]. rewrite seq_S, lsum_app. simpl. rewrite IHn. lra.
Qed.
Lemma lsum_abs {A} (f : A -> R) l : Rabs (lsum f l) <= lsum (fun a => Rabs (f a)) l.
Proof. induction l; simpl; [rewrite Rabs_R0; lra|]. eapply Rle_trans; [apply Rabs_triang|]. lra. Qed.
Lemma lsum_le {A} (f g : A -> R) l : (forall a, In a l -> f a <= g a) -> lsum f l <= lsum g l.
Proof. induction l; simpl; intros Hx; [lra|]. apply Rplus_le_compat; [apply Hx; auto|apply IHl; intros; apply Hx; auto]. Qed.
Lemma lsum_nonneg {A} (f : A -> R) l : (forall a, In a l -> 0 <= f a) -> 0 <= lsum f l.
Proof. induction l; simpl; intros Hx; [lra|]. apply Rplus_le_le_0_compat; [apply Hx; auto|apply IHl; intros; apply Hx; auto]. Qed.

Lemma Rsum_term n (f : nat -> R) k : (forall i, 0 <= f i) -> (k < n)%nat -> f k <= Rsum n f.
Proof.
  intros Hf. induction n; intros Hk; [lia|]. simpl. destruct (Nat.eq_dec k n) as [->|]; [pose proof (Rsum_nonneg n f (fun i _ => Hf i)); lra|].
  specialize (IHn ltac:(lia)). specialize (Hf n). lra.
Qed.
Lemma nth_repeat_lt {A} (a d : A) m k : (k < m)%nat -> nth k (repeat a m) d = a.
Proof. revert k. induction m; intros [|k] Hk; simpl; try lia; [reflexivity|]. apply IHm. lia. Qed.

Fixpoint tuples {A} (m : nat) (l : list A) : list (list A) :=
  match m with O => [[]] | S m => flat_map (fun a => map (cons a) (tuples m l)) l end.
Lemma tuples_length {A} m (l : list A) x : In x (tuples m l) -> length x = m.
Proof.
  revert x. induction m; simpl; intros x Hx; [destruct Hx as [<-|[]]; reflexivity|].
  apply in_flat_map in Hx. destruct Hx as (a & _ & Hx). apply in_map_iff in Hx. destruct Hx as (y & <- & Hy). simpl. f_equal. auto.
Qed.

(** * One-dimensional estimates *)
Lemma growth (G G' : R -> R) x B : 0 <= x -> (forall s, 0 <= s <= x -> is_derive G s (G' s)) -> (forall s, 0 <= s <= x -> Rabs (G' s) <= B) ->
  Rabs (G x - G 0) <= B * x.
Proof.
  intros Hx Hd Hb. destruct (MVT_gen G 0 x G') as (c & Hc & E).
  - intros s Hs. rewrite Rmin_left, Rmax_right in Hs by lra. apply Hd. lra.
  - intros s Hs. rewrite Rmin_left, Rmax_right in Hs by lra. apply continuity_pt_filterlim. apply (ex_derive_continuous (V := R_NormedModule)). exists (G' s). apply Hd. lra.
  - rewrite Rmin_left, Rmax_right in Hc by lra. rewrite E, Rminus_0_r, Rabs_mult, (Rabs_pos_eq x) by lra. apply Rmult_le_compat_r; [lra|]. apply Hb. lra.
Qed.

Lemma is_derive_Rsum n (f : nat -> R -> R) (d : nat -> R) x : (forall i, (i < n)%nat -> is_derive (f i) x (d i)) -> is_derive (fun x => Rsum n (fun i => f i x)) x (Rsum n d).
Proof.
  induction n; intros Hi; simpl; [apply (is_derive_const (V := R_NormedModule))|].
  apply (is_derive_plus (V := R_NormedModule)); [apply IHn; intros; apply Hi; lia|apply Hi; lia].
Qed.
Lemma is_derive_lsum {A} (l : list A) (f : A -> R -> R) (d : A -> R) x : (forall a, In a l -> is_derive (f a) x (d a)) -> is_derive (fun x => lsum (fun a => f a x) l) x (lsum d l).
Proof.
  induction l; intros Hi; simpl; [apply (is_derive_const (V := R_NormedModule))|].
  apply (is_derive_plus (V := R_NormedModule)); [apply Hi; left; reflexivity|apply IHl; intros; apply Hi; right; assumption].
Qed.
Lemma is_derive_scal_ (f : R -> R) x k d : is_derive f x d -> is_derive (fun x => k * f x) x (k * d).
Proof. intros Hd. apply (is_derive_scal f x k d). exact Hd. Qed.

Lemma pow_small x a b : 0 <= x <= 1 -> (b <= a)%nat -> x ^ a <= x ^ b.
Proof.
  intros Hx Hab. replace a with (b + (a - b))%nat by lia. rewrite pow_add. rewrite <- (Rmult_1_r (x ^ b)) at 2.
  apply Rmult_le_compat_l; [apply pow_le; lra|]. rewrite <- (pow1 (a - b)). apply pow_incr. lra.
Qed.

(** Taylor's formula with remainder on [0,1]. *)
Lemma taylor P : forall (g : nat -> R -> R) K, 0 <= K -> (forall m s, (m < P)%nat -> 0 <= s <= 1 -> is_derive (g m) s (g (S m) s)) ->
  (forall s, 0 <= s <= 1 -> Rabs (g P s) <= K) ->
  forall x, 0 <= x <= 1 -> Rabs (g O x - Rsum P (fun m => g m 0 * x ^ m / INR (fact m))) <= K * x ^ P.
Proof.
  induction P as [|P IH]; intros g K HK Hd Hb x Hx.
  - simpl. rewrite Rminus_0_r, Rmult_1_r. apply Hb. exact Hx.
  - set (G := fun x => g O x - Rsum (S P) (fun m => g m 0 * x ^ m / INR (fact m))).
    set (G' := fun x => g 1%nat x - Rsum P (fun m => g (S m) 0 * x ^ m / INR (fact m))).
    assert (HG : forall s, 0 <= s <= 1 -> is_derive G s (G' s)).
    { intros s Hs. unfold G, G'. apply (is_derive_minus (V := R_NormedModule)); [apply Hd; [lia|exact Hs]|].
      eapply is_derive_ext; [intros z; symmetry; apply Rsum_shift|]. cbv beta.
      replace (Rsum P (fun m => g (S m) 0 * s ^ m / INR (fact m))) with (0 + Rsum P (fun m => g (S m) 0 * s ^ m / INR (fact m))) by ring.
      apply (is_derive_plus (V := R_NormedModule)).
      - auto_derive; [exact I|ring].
      - apply is_derive_Rsum. intros i Hi.
        replace (g (S i) 0 * s ^ i / INR (fact i)) with (g (S i) 0 / INR (fact (S i)) * (INR (S i) * 1 * s ^ pred (S i))).
        + apply (is_derive_ext (fun z => g (S i) 0 / INR (fact (S i)) * z ^ S i)); [intros z; unfold Rdiv; rewrite !Rmult_assoc; f_equal; apply Rmult_comm|].
          apply is_derive_scal_. apply is_derive_pow. apply (is_derive_id (K := R_AbsRing)).
        + rewrite fact_simpl, mult_INR. simpl pred. field. split; [apply INR_fact_neq_0|apply not_0_INR; lia]. }
    assert (HB : forall s, 0 <= s <= x -> Rabs (G' s) <= K * x ^ P).
    { intros s Hs. eapply Rle_trans; [apply (IH (fun m => g (S m)) K HK)|].
      - intros m u Hm Hu. apply Hd; [lia|exact Hu].
      - exact Hb.
      - lra.
      - apply Rmult_le_compat_l; [exact HK|]. apply pow_incr. lra. }
    pose proof (growth G G' x _ (proj1 Hx) (fun s Hs => HG s ltac:(lra)) HB) as E.
    assert (G 0 = 0) as E0.
    { unfold G. rewrite Rsum_shift. rewrite Rsum_0; [simpl; field|]. intros i _. simpl. unfold Rdiv. ring. }
    rewrite E0, Rminus_0_r in E. unfold G in E. eapply Rle_trans; [exact E|]. simpl. right. ring.
Qed.

(** * Derivatives as multilinear maps *)
Section Order.
Variables (n P : nat) (M : R) (df : list nat -> vec -> nat -> R).
Hypothesis HM : 0 <= M.

Fixpoint D (vs : list vec) (l : list nat) (y : vec) (q : nat) : R :=
  match vs with [] => df l y q | v :: vs => Rsum n (fun i => v i * D vs (i :: l) y q) end.

Definition small (E : R) (v : vec) : Prop := forall i, (i < n)%nat -> Rabs (v i) <= E.

Lemma D_bound vs : forall E l y q, 0 <= E -> Forall (small E) vs -> (forall l, (length l <= P)%nat -> Rabs (df l y q) <= M) -> (length l + length vs <= P)%nat ->
  Rabs (D vs l y q) <= M * (INR n * E) ^ length vs.
Proof.
  induction vs as [|v vs IH]; intros E l y q HE Hv Hb Hl; simpl.
  - rewrite Rmult_1_r. apply Hb. simpl in Hl. lia.
  - inversion Hv as [|? ? K1 K2]; subst. eapply Rle_trans; [apply Rsum_abs|].
    eapply Rle_trans; [apply Rsum_le with (g := fun _ => E * (M * (INR n * E) ^ length vs))|].
    + intros i Hi. rewrite Rabs_mult. apply Rmult_le_compat; try apply Rabs_pos; [apply K1; exact Hi|]. apply IH; try assumption. simpl in * . lia.
    + rewrite Rsum_const. right. ring.
Qed.

Lemma D_diff m : forall E, 0 <= E -> exists C, 0 <= C /\ forall vs ws e l y q, length vs = m -> length ws = m -> 0 <= e -> Forall (small E) vs -> Forall (small E) ws ->
  (forall k i, (k < m)%nat -> (i < n)%nat -> Rabs (nth k vs (fun _ => 0) i - nth k ws (fun _ => 0) i) <= e) ->
  (forall l, (length l <= P)%nat -> Rabs (df l y q) <= M) -> (length l + m <= P)%nat ->
  Rabs (D vs l y q - D ws l y q) <= C * e.
Proof.
  intros E HE. induction m as [|m (C & HC & IH)].
  - exists 0. split; [lra|]. intros [|v0 vs0] [|w0 ws0] e l y q Hv Hw; try discriminate. intros. simpl. rewrite Rminus_diag_eq, Rabs_R0 by reflexivity. lra.
  - exists (INR n * (M * (INR n * E) ^ m + E * C)). assert (0 <= INR n) by apply pos_INR. assert (0 <= (INR n * E) ^ m) by (apply pow_le; apply Rmult_le_pos; assumption).
    split; [apply Rmult_le_pos; [assumption|]; apply Rplus_le_le_0_compat; apply Rmult_le_pos; assumption|].
    intros [|v vs] [|w ws] e l y q Hv Hw; try discriminate. intros He Fv Fw Hd Hb Hl. inversion Fv as [|? ? V1 V2]; inversion Fw as [|? ? W1 W2]; subst. simpl.
    rewrite <- Rsum_minus. eapply Rle_trans; [apply Rsum_abs|].
    eapply Rle_trans; [apply Rsum_le with (g := fun _ => e * (M * (INR n * E) ^ m) + E * (C * e))|].
    + intros i Hi. replace (v i * D vs (i :: l) y q - w i * D ws (i :: l) y q) with ((v i - w i) * D vs (i :: l) y q + w i * (D vs (i :: l) y q - D ws (i :: l) y q)) by ring.
      eapply Rle_trans; [apply Rabs_triang|]. rewrite !Rabs_mult. apply Rplus_le_compat; apply Rmult_le_compat; try apply Rabs_pos.
      * exact (Hd O i ltac:(lia) Hi).
      * injection Hv as Hv. rewrite <- Hv. apply D_bound; try assumption. simpl in * . lia.
      * apply W1. exact Hi.
      * injection Hv as Hv. injection Hw as Hw. apply IH; try assumption; [|simpl in * ; lia]. intros k j Hk Hj. exact (Hd (S k) j ltac:(lia) Hj).
    + rewrite Rsum_const. right. ring.
Qed.

(** expansion of D(S,...,S) for S = sum c_tau F_tau *)
Lemma D_expand {A} (L : list A) (c : A -> R) (F : A -> vec) y q m : forall l,
  D (repeat (fun i => lsum (fun a => c a * F a i) L) m) l y q =
  lsum (fun tu => fold_right (fun a r => c a * r) 1 tu * D (map F tu) l y q) (tuples m L).
Proof.
  induction m as [|m IH]; intros l; simpl; [ring|].
  rewrite lsum_flat_map. erewrite Rsum_ext; [|intros i _; rewrite IH; reflexivity].
  transitivity (Rsum n (fun i => lsum (fun a => c a * F a i * lsum (fun tu => fold_right (fun a r => c a * r) 1 tu * D (map F tu) (i :: l) y q) (tuples m L)) L)).
  - apply Rsum_ext. intros i _. rewrite Rmult_comm. rewrite <- lsum_scal. apply lsum_ext. intros a _. ring.
  - rewrite lsum_Rsum. apply lsum_ext. intros a _. rewrite lsum_map.
    transitivity (Rsum n (fun i => lsum (fun tu => c a * F a i * (fold_right (fun a r => c a * r) 1 tu * D (map F tu) (i :: l) y q)) (tuples m L))).
    + apply Rsum_ext. intros i _. rewrite lsum_scal. reflexivity.
    + rewrite lsum_Rsum. apply lsum_ext. intros tu _. simpl. rewrite <- Rsum_scal. apply Rsum_ext. intros i _. ring.
Qed.

(** * Trees *)
Fixpoint TL (k : nat) : list tree := match k with O => [] | S k => flat_map (fun m => map Node (tuples m (TL k))) (seq 0 P) end.
Fixpoint tw (t : tree) : R := match t with Node ch => / INR (fact (length ch)) * fold_right (fun u r => tw u * r) 1 ch end.
Fixpoint elem (y : vec) (t : tree) : vec := match t with Node ch => fun q => D (map (elem y) ch) [] y q end.
Definition lift_u (u : tree -> R) (t : tree) : R := match t with Node ch => fold_right (fun v r => u v * r) 1 ch end.

Definition BS (u : tree -> R) (y : vec) (k : nat) (h : R) (q : nat) : R := lsum (fun t => h ^ vertices t * u t * tw t * elem y t q) (TL k).
Definition BK (u : tree -> R) (y : vec) (k : nat) (h : R) (q : nat) : R := lsum (fun t => h ^ (vertices t - 1) * lift_u u t * tw t * elem y t q) (TL k).

Lemma compose_exact u y k h q : Rsum P (fun m => D (repeat (BS u y k h) m) [] y q / INR (fact m)) = BK u y (S k) h q.
Proof.
  unfold BK. simpl TL. rewrite lsum_flat_map, lsum_seq. apply Rsum_ext. intros m _. rewrite lsum_map.
  change (BS u y k h) with (fun i => lsum (fun t => (h ^ vertices t * u t * tw t) * elem y t i) (TL k)). rewrite D_expand.
  unfold Rdiv. rewrite Rmult_comm, <- lsum_scal. apply lsum_ext. intros tu Htu. rewrite <- (tuples_length _ _ _ Htu).
  cbn [elem tw lift_u vertices]. rewrite Nat.sub_succ, Nat.sub_0_r.
  replace (fold_right (fun a r => h ^ vertices a * u a * tw a * r) 1 tu) with
    (h ^ fold_right (fun u n => (vertices u + n)%nat) O tu * fold_right (fun v r => u v * r) 1 tu * fold_right (fun u r => tw u * r) 1 tu); [ring|].
  clear. induction tu as [|t tu IH]; simpl; [ring|]. rewrite pow_add, <- IH. ring.
Qed.

Lemma tuples_in {A} m (l : list A) x : In x (tuples m l) -> Forall (fun a => In a l) x.
Proof.
  revert x. induction m; simpl; intros x Hx; [destruct Hx as [<-|[]]; constructor|].
  apply in_flat_map in Hx. destruct Hx as (a & Ha & Hx). apply in_map_iff in Hx. destruct Hx as (y & <- & Hy). constructor; auto.
Qed.

(** The derivatives of order up to P are bounded by M and are derivatives, within r of y. *)
Definition good (y : vec) (r : R) : Prop :=
  (forall l x q, (length l <= P)%nat -> (q < n)%nat -> small r (fun i => x i - y i) -> Rabs (df l x q) <= M) /\
  (forall l x v s q, (length l < P)%nat -> (q < n)%nat -> small r (fun i => x i + s * v i - y i) ->
     is_derive (fun s => df l (fun i => x i + s * v i) q) s (Rsum n (fun i => v i * df (i :: l) (fun i => x i + s * v i) q))).

Lemma small_0 y r : 0 <= r -> small r (fun i => y i - y i).
Proof. intros Hr i _. rewrite Rminus_diag_eq, Rabs_R0 by reflexivity. exact Hr. Qed.

Lemma elem_bound k : exists C, 0 <= C /\ forall y r, 0 <= r -> good y r -> forall t, In t (TL k) -> small C (elem y t).
Proof.
  induction k as [|k (C & HC & IH)]; [exists 0; split; [lra|]; intros y r _ _ t []|].
  assert (K : forall m, 0 <= M * (INR n * C) ^ m).
  { intros m. apply Rmult_le_pos; [exact HM|]. apply pow_le. apply Rmult_le_pos; [apply pos_INR|exact HC]. }
  exists (Rsum P (fun m => M * (INR n * C) ^ m)). split; [apply Rsum_nonneg; intros; apply K|].
  intros y r Hr Hg t Ht q Hq. simpl in Ht. apply in_flat_map in Ht. destruct Ht as (m & Hm & Ht). apply in_map_iff in Ht. destruct Ht as (ch & <- & Hch). simpl.
  apply in_seq in Hm. pose proof (tuples_length _ _ _ Hch) as Hl. pose proof (tuples_in _ _ _ Hch) as Hi.
  eapply Rle_trans; [apply (D_bound _ C)|].
  - exact HC.
  - apply Forall_map. eapply Forall_impl; [|exact Hi]. intros u Hu. exact (IH y r Hr Hg u Hu).
  - intros l Hll. apply (proj1 Hg); [exact Hll|exact Hq|]. apply small_0. exact Hr.
  - rewrite map_length. simpl. lia.
  - rewrite map_length, Hl. apply (Rsum_term P (fun m => M * (INR n * C) ^ m)); [intros; apply K|lia].
Qed.

Lemma D_line dl : forall y v s m l q, good y dl -> (length l + m < P)%nat -> (q < n)%nat -> small dl (fun i => y i + s * v i - y i) ->
  is_derive (fun s => D (repeat v m) l (fun i => y i + s * v i) q) s (D (repeat v (S m)) l (fun i => y i + s * v i) q).
Proof.
  intros y v s m. induction m as [|m IH]; intros l q Hg Hl Hq Hs.
  - simpl. apply (proj2 Hg); [lia|exact Hq|exact Hs].
  - change (is_derive (fun s => Rsum n (fun j => v j * D (repeat v m) (j :: l) (fun i => y i + s * v i) q)) s
             (Rsum n (fun j => v j * D (repeat v (S m)) (j :: l) (fun i => y i + s * v i) q))).
    apply is_derive_Rsum. intros j _. apply is_derive_scal_. apply IH; [exact Hg|simpl; lia|exact Hq|exact Hs].
Qed.

Lemma taylor_f y r d E q : 0 <= r -> 0 <= E -> good y r -> small r d -> small E d -> (q < n)%nat ->
  Rabs (df [] (fun i => y i + d i) q - Rsum P (fun m => D (repeat d m) [] y q / INR (fact m))) <= M * (INR n * E) ^ P.
Proof.
  intros Hr HE Hg Hd He Hq.
  assert (Hline : forall s, 0 <= s <= 1 -> small r (fun i => y i + s * d i - y i)).
  { intros s Hs i Hi. replace (y i + s * d i - y i) with (s * d i) by ring. rewrite Rabs_mult, (Rabs_pos_eq s) by lra.
    pose proof (Hd i Hi). pose proof (Rabs_pos (d i)). nra. }
  pose proof (taylor P (fun m s => D (repeat d m) [] (fun i => y i + s * d i) q) (M * (INR n * E) ^ P)) as T.
  assert (T0 : 0 <= M * (INR n * E) ^ P). { apply Rmult_le_pos; [exact HM|]. apply pow_le. apply Rmult_le_pos; [apply pos_INR|exact HE]. }
  specialize (T T0). assert (T1 : forall m s, (m < P)%nat -> 0 <= s <= 1 -> is_derive (fun s => D (repeat d m) [] (fun i => y i + s * d i) q) s (D (repeat d (S m)) [] (fun i => y i + s * d i) q)).
  { intros m s Hm Hs. apply (D_line r); [exact Hg|simpl; lia|exact Hq|apply Hline; exact Hs]. }
  specialize (T T1). assert (T2 : forall s, 0 <= s <= 1 -> Rabs (D (repeat d P) [] (fun i => y i + s * d i) q) <= M * (INR n * E) ^ P).
  { intros s Hs. eapply Rle_trans; [apply (D_bound _ E)|rewrite repeat_length; lra].
    - exact HE.
    - apply Forall_forall. intros v Hv. apply repeat_spec in Hv. subst v. exact He.
    - intros l Hl. apply (proj1 Hg); [exact Hl|exact Hq|apply Hline; exact Hs].
    - rewrite repeat_length. simpl. lia. }
  specialize (T T2 1 ltac:(lra)). rewrite pow1, Rmult_1_r in T. cbn [repeat D] in T.
  replace (fun i => y i + 1 * d i) with (fun i => y i + d i) in T by (extensionality i; ring).
  replace (fun i => y i + 0 * d i) with y in T by (extensionality i; ring).
  erewrite Rsum_ext in T; [exact T|]. intros m _. cbv beta. rewrite pow1, Rmult_1_r. reflexivity.
Qed.

Lemma compose u k E Cr : 0 <= E -> 0 <= Cr -> (S k <= P)%nat -> exists C, 0 <= C /\ forall y r h d, 0 <= r -> good y r -> 0 <= h <= 1 -> small r d -> small (E * h) d ->
  (forall i, (i < n)%nat -> Rabs (d i - BS u y k h i) <= Cr * h ^ S k) ->
  forall q, (q < n)%nat -> Rabs (df [] (fun i => y i + d i) q - BK u y (S k) h q) <= C * h ^ S k.
Proof.
  intros HE HC Hk.
  assert (Hall : forall j, (j <= P)%nat -> exists C, 0 <= C /\ forall y r h d, 0 <= r -> good y r -> 0 <= h <= 1 -> small (E * h) d ->
    (forall i, (i < n)%nat -> Rabs (d i - BS u y k h i) <= Cr * h ^ S k) -> forall q, (q < n)%nat ->
    Rabs (Rsum j (fun m => D (repeat d m) [] y q / INR (fact m)) - Rsum j (fun m => D (repeat (BS u y k h) m) [] y q / INR (fact m))) <= C * h ^ S k).
  { induction j as [|j IH]; intros Hj.
    - exists 0. split; [lra|]. intros. simpl. rewrite Rminus_0_r, Rabs_R0. lra.
    - destruct (IH ltac:(lia)) as (C1 & HC1 & K1). destruct (D_diff j (E + Cr) ltac:(lra)) as (C2 & HC2 & K2).
      exists (C1 + C2 * Cr). split; [apply Rplus_le_le_0_compat; [exact HC1|apply Rmult_le_pos; assumption]|].
      intros y r h d Hr Hg Hh Hd Hdb q Hq. cbn [Rsum].
      specialize (K1 y r h d Hr Hg Hh Hd Hdb q Hq).
      assert (Hp : 0 <= h ^ S k <= 1). { split; [apply pow_le; lra|]. rewrite <- (pow1 (S k)). apply pow_incr. lra. }
      assert (K3 : Rabs (D (repeat d j) [] y q - D (repeat (BS u y k h) j) [] y q) <= C2 * (Cr * h ^ S k)).
      { apply K2; try apply repeat_length.
        - apply Rmult_le_pos; [exact HC|apply Hp].
        - apply Forall_forall. intros v Hv. apply repeat_spec in Hv. subst v. intros i Hi. specialize (Hd i Hi). nra.
        - apply Forall_forall. intros v Hv. apply repeat_spec in Hv. subst v. intros i Hi. specialize (Hd i Hi). specialize (Hdb i Hi).
          replace (BS u y k h i) with (d i - (d i - BS u y k h i)) by ring. eapply Rle_trans; [apply Rabs_triang|]. rewrite Rabs_Ropp. nra.
        - intros m i Hm Hi. rewrite !nth_repeat_lt by exact Hm. apply Hdb. exact Hi.
        - intros l Hl. apply (proj1 Hg); [exact Hl|exact Hq|apply small_0; exact Hr].
        - simpl. lia. }
      revert K1 K3. generalize (Rsum j (fun m => D (repeat d m) [] y q / INR (fact m))) (Rsum j (fun m => D (repeat (BS u y k h) m) [] y q / INR (fact m))) (D (repeat d j) [] y q) (D (repeat (BS u y k h) j) [] y q).
      intros A B a b K1 K3.
      replace (A + a / INR (fact j) - (B + b / INR (fact j))) with ((A - B) + (a - b) * / INR (fact j)) by (unfold Rdiv; ring).
      eapply Rle_trans; [apply Rabs_triang|]. rewrite (Rabs_mult (a - b)).
      assert (0 <= / INR (fact j) <= 1).
      { pose proof (lt_O_fact j). assert (1 <= INR (fact j)) by (replace 1 with (INR 1) by reflexivity; apply le_INR; lia). split; [apply Rlt_le, Rinv_0_lt_compat; lra|].
        rewrite <- Rinv_1. apply Rinv_le_contravar; lra. }
      rewrite (Rabs_pos_eq (/ INR (fact j))) by lra. pose proof (Rabs_pos (a - b)). nra. }
  destruct (Hall P (le_n P)) as (C1 & HC1 & K1). exists (M * (INR n * E) ^ P + C1).
  assert (0 <= M * (INR n * E) ^ P). { apply Rmult_le_pos; [exact HM|]. apply pow_le. apply Rmult_le_pos; [apply pos_INR|exact HE]. }
  split; [lra|]. intros y r h d Hr Hg Hh Hd He Hdb q Hq.
  pose proof (taylor_f y r d (E * h) q Hr ltac:(nra) Hg Hd He Hq) as T. specialize (K1 y r h d Hr Hg Hh He Hdb q Hq). rewrite compose_exact in K1.
  set (A := df [] _ q) in * . set (B := Rsum P _) in * . replace (A - BK u y (S k) h q) with ((A - B) + (B - BK u y (S k) h q)) by ring.
  eapply Rle_trans; [apply Rabs_triang|]. rewrite Rmult_plus_distr_r. apply Rplus_le_compat; [|exact K1].
  eapply Rle_trans; [exact T|]. rewrite <- Rmult_assoc, Rpow_mult_distr. rewrite <- Rmult_assoc. apply Rmult_le_compat_l; [assumption|]. apply pow_small; assumption.
Qed.

(** * The exact solution *)
Definition exact_u (t : tree) : R := / INR (density t).

Lemma density_pos t : (1 <= density t)%nat.
Proof.
  induction t as [ch IH] using tree_ind'. cbn [density].
  assert (1 <= fold_right (fun u n0 => density u * n0) 1 ch)%nat.
  { induction IH as [|u ch Hu _ IHch]; simpl; [lia|]. nia. }
  assert (1 <= vertices (Node ch))%nat by (simpl; lia). nia.
Qed.
Lemma exact_lift t : lift_u exact_u t = INR (vertices t) * exact_u t.
Proof.
  destruct t as [ch]. unfold exact_u at 2. cbn [density lift_u]. rewrite mult_INR.
  assert (E : forall ch, fold_right (fun v r => exact_u v * r) 1 ch = / INR (fold_right (fun u n0 => (density u * n0)%nat) 1%nat ch) /\ 0 < INR (fold_right (fun u n0 => (density u * n0)%nat) 1%nat ch)).
  { clear. induction ch as [|u ch (IH & Hp)]; simpl fold_right; [simpl; split; [field|lra]|]. rewrite mult_INR, IH. unfold exact_u.
    assert (0 < INR (density u)) by (apply lt_0_INR; pose proof (density_pos u); lia). split; [field; lra|nra]. }
  destruct (E ch) as (E1 & E2). rewrite E1. assert (0 < INR (vertices (Node ch))) by (apply lt_0_INR; simpl; lia). field. lra.
Qed.

Lemma BS_derive u y k s q : is_derive (fun s => BS u y k s q) s (lsum (fun t => s ^ (vertices t - 1) * (INR (vertices t) * u t) * tw t * elem y t q) (TL k)).
Proof.
  unfold BS. apply is_derive_lsum. intros t _.
  apply (is_derive_ext (fun s => (u t * tw t * elem y t q) * s ^ vertices t)); [intros z; rewrite (Rmult_comm (u t * tw t * elem y t q)), !Rmult_assoc; reflexivity|].
  replace (s ^ (vertices t - 1) * (INR (vertices t) * u t) * tw t * elem y t q) with ((u t * tw t * elem y t q) * (INR (vertices t) * 1 * s ^ pred (vertices t))).
  - apply is_derive_scal_. apply is_derive_pow. apply (is_derive_id (K := R_AbsRing)).
  - replace (pred (vertices t)) with (vertices t - 1)%nat by lia. ring.
Qed.
Lemma BS_0 u y k q : BS u y k 0 q = 0.
Proof.
  unfold BS. rewrite (lsum_ext _ (fun _ => 0 * 0)); [rewrite lsum_scal; ring|]. intros [ch] _. rewrite pow_i by (simpl; lia). ring.
Qed.

(** X is a solution on [0,H] from y that stays within r of y. *)
Definition flows (X : R -> vec) (y : vec) (r H : R) : Prop :=
  X 0 = y /\ (forall s q, 0 <= s <= H -> (q < n)%nat -> is_derive (fun s => X s q) s (df [] (X s) q)) /\ (forall s, 0 <= s <= H -> small r (fun i => X s i - y i)).

Lemma flow_linear X y r H : good y r -> flows X y r H -> forall s, 0 <= s <= H -> small (M * s) (fun i => X s i - y i).
Proof.
  intros Hg (X0 & X1 & X2) s Hs q Hq. rewrite <- X0.
  apply (growth (fun s => X s q) (fun s => df [] (X s) q)); [lra| |].
  - intros u Hu. apply X1; [lra|exact Hq].
  - intros u Hu. apply (proj1 Hg); [simpl; lia|exact Hq|apply X2; lra].
Qed.

Lemma exact_expansion k : (k <= P)%nat -> exists C, 0 <= C /\ forall y r X H, 0 <= r -> good y r -> 0 <= H <= 1 -> flows X y r H ->
  forall s q, 0 <= s <= H -> (q < n)%nat -> Rabs (X s q - y q - BS exact_u y k s q) <= C * s ^ S k.
Proof.
  induction k as [|k IH]; intros Hk.
  - exists M. split; [exact HM|]. intros y r X H Hr Hg HH HX s q Hs Hq. unfold BS. simpl TL. simpl lsum. rewrite Rminus_0_r. simpl. rewrite Rmult_1_r.
    exact (flow_linear X y r H Hg HX s Hs q Hq).
  - destruct (IH ltac:(lia)) as (C & HC & K). destruct (compose exact_u k M C HM HC Hk) as (C' & HC' & K').
    exists C'. split; [exact HC'|]. intros y r X H Hr Hg HH HX s q Hs Hq.
    assert (E0 : forall s, 0 <= s <= H -> forall q, (q < n)%nat -> Rabs (df [] (X s) q - BK exact_u y (S k) s q) <= C' * s ^ S k).
    { intros u Hu p Hp. pose proof (K' y r u (fun i => X u i - y i) Hr Hg ltac:(lra)) as K2. destruct HX as (X0 & X1 & X2).
      specialize (K2 (X2 u Hu) (flow_linear X y r H Hg (conj X0 (conj X1 X2)) u Hu)).
      specialize (K2 (fun i Hi => K y r X H Hr Hg HH (conj X0 (conj X1 X2)) u i Hu Hi) p Hp).
      cbv beta in K2. replace (fun i => y i + (X u i - y i)) with (X u) in K2 by (extensionality i; ring). exact K2. }
    pose proof (growth (fun s => X s q - y q - BS exact_u y (S k) s q) (fun s => df [] (X s) q - BK exact_u y (S k) s q) s (C' * s ^ S k) (proj1 Hs)) as G.
    cbv beta in G. rewrite BS_0 in G. replace (X 0 q) with (y q) in G by (rewrite (proj1 HX); reflexivity).
    replace (X s q - y q - BS exact_u y (S k) s q - (y q - y q - 0)) with (X s q - y q - BS exact_u y (S k) s q) in G by ring.
    replace (C' * s ^ S (S k)) with (C' * s ^ S k * s) by (simpl; ring). apply G.
    + intros u Hu. destruct HX as (X0 & X1 & X2). apply (is_derive_minus (V := R_NormedModule)).
      * apply (is_derive_ext (fun s => X s q + - y q)); [intros; reflexivity|]. rewrite <- (Rplus_0_r (df [] (X u) q)).
        apply (is_derive_plus (V := R_NormedModule)); [apply X1; [lra|exact Hq]|apply (is_derive_const (V := R_NormedModule))].
      * unfold BK. erewrite lsum_ext; [apply BS_derive|]. intros t _. rewrite exact_lift. reflexivity.
    + intros u Hu. eapply Rle_trans; [apply E0; [lra|exact Hq]|]. apply Rmult_le_compat_l; [exact HC'|]. apply pow_incr. lra.
Qed.

(** * The numerical solution *)
Variables (st : nat) (a : nat -> nat -> R) (b : nat -> R).
Definition asum : R := Rsum st (fun i => Rsum st (fun j => Rabs (a i j))).
Definition bsum : R := Rsum st (fun i => Rabs (b i)).
Lemma asum_pos : 0 <= asum. Proof. apply Rsum_nonneg. intros. apply Rsum_nonneg. intros. apply Rabs_pos. Qed.
Lemma bsum_pos : 0 <= bsum. Proof. apply Rsum_nonneg. intros. apply Rabs_pos. Qed.
Lemma arow i : (i < st)%nat -> Rsum st (fun j => Rabs (a i j)) <= asum.
Proof. intros Hi. apply (Rsum_term st (fun i => Rsum st (fun j => Rabs (a i j)))); [|exact Hi]. intros j. apply Rsum_nonneg. intros. apply Rabs_pos. Qed.

Lemma weighted_bound (w : nat -> R) (x : nat -> R) B m : 0 <= B -> (forall j, (j < m)%nat -> Rabs (x j) <= B) -> Rabs (Rsum m (fun j => w j * x j)) <= Rsum m (fun j => Rabs (w j)) * B.
Proof.
  intros HB Hx. eapply Rle_trans; [apply Rsum_abs|]. rewrite <- Rsum_scal_r. apply Rsum_le. intros j Hj. rewrite Rabs_mult. apply Rmult_le_compat_l; [apply Rabs_pos|]. apply Hx. exact Hj.
Qed.

Lemma finite_const (Q : nat -> R -> Prop) m : (forall j C C', C <= C' -> Q j C -> Q j C') -> (forall j, (j < m)%nat -> exists C, 0 <= C /\ Q j C) -> exists C, 0 <= C /\ forall j, (j < m)%nat -> Q j C.
Proof.
  intros Hmono. induction m as [|m IH]; intros Hex; [exists 0; split; [lra|]; intros; lia|].
  destruct IH as (C & HC & K); [intros; apply Hex; lia|]. destruct (Hex m ltac:(lia)) as (C' & HC' & K'). exists (C + C'). split; [lra|].
  intros j Hj. destruct (Nat.eq_dec j m) as [->|]; [apply (Hmono m C'); [lra|exact K']|apply (Hmono j C); [lra|apply K; lia]].
Qed.

(** Z solves the stage equations from y with step h, within r of y. *)
Definition stages (y : vec) (r h : R) (Z : nat -> vec) : Prop :=
  forall i, (i < st)%nat -> small r (Z i) /\ forall q, (q < n)%nat -> Z i q = h * Rsum st (fun j => a i j * df [] (fun p => y p + Z j p) q).
Definition stage_u (i : nat) (t : tree) : R := Rsum st (fun j => a i j * stage_weight st a t j).

Lemma stage_rhs_bound y r h Z j q : good y r -> stages y r h Z -> (j < st)%nat -> (q < n)%nat -> Rabs (df [] (fun p => y p + Z j p) q) <= M.
Proof.
  intros Hg HZ Hj Hq. apply (proj1 Hg); [simpl; lia|exact Hq|]. intros i Hi. replace (y i + Z j i - y i) with (Z j i) by ring. apply (HZ j Hj). exact Hi.
Qed.
Lemma stage_linear y r h Z i : good y r -> 0 <= h -> stages y r h Z -> (i < st)%nat -> small (asum * M * h) (Z i).
Proof.
  intros Hg Hh HZ Hi q Hq. rewrite (proj2 (HZ i Hi) q Hq), Rabs_mult, (Rabs_pos_eq h) by lra. rewrite Rmult_comm. apply Rmult_le_compat_r; [lra|].
  eapply Rle_trans; [apply (weighted_bound _ _ M)|apply Rmult_le_compat_r; [exact HM|apply arow; exact Hi]]; [exact HM|]. intros j Hj. apply (stage_rhs_bound y r h); assumption.
Qed.
Lemma stage_lift i t : lift_u (stage_u i) t = stage_weight st a t i.
Proof. destruct t as [ch]. reflexivity. Qed.

(** The slopes at points near y whose distances from y have the expansion of the stages. *)
Lemma slope_expansion_of (Q : vec -> R -> R -> (nat -> vec) -> Prop) k : (S k <= P)%nat ->
  (forall y r h Z i, good y r -> 0 <= h -> Q y r h Z -> (i < st)%nat -> small r (Z i) /\ small (asum * M * h) (Z i)) ->
  (exists C, 0 <= C /\ forall y r h Z, 0 <= r -> good y r -> 0 <= h <= 1 -> Q y r h Z -> forall i q, (i < st)%nat -> (q < n)%nat -> Rabs (Z i q - BS (stage_u i) y k h q) <= C * h ^ S k) ->
  exists C, 0 <= C /\ forall y r h Z, 0 <= r -> good y r -> 0 <= h <= 1 -> Q y r h Z -> forall i q, (i < st)%nat -> (q < n)%nat ->
    Rabs (df [] (fun p => y p + Z i p) q - lsum (fun t => h ^ (vertices t - 1) * stage_weight st a t i * tw t * elem y t q) (TL (S k))) <= C * h ^ S k.
Proof.
  intros Hk HQ (C & HC & K).
  destruct (finite_const (fun i C => forall y r h Z, 0 <= r -> good y r -> 0 <= h <= 1 -> Q y r h Z -> forall q, (q < n)%nat ->
    Rabs (df [] (fun p => y p + Z i p) q - lsum (fun t => h ^ (vertices t - 1) * stage_weight st a t i * tw t * elem y t q) (TL (S k))) <= C * h ^ S k) st) as (C' & HC' & K').
  - intros j c c' Hc Hj y r h Z Hr Hg Hh HZ q Hq. eapply Rle_trans; [apply (Hj y r h Z); assumption|]. apply Rmult_le_compat_r; [apply pow_le; lra|exact Hc].
  - intros i Hi. destruct (compose (stage_u i) k (asum * M) C (Rmult_le_pos _ _ asum_pos HM) HC Hk) as (C1 & HC1 & K1). exists C1. split; [exact HC1|].
    intros y r h Z Hr Hg Hh HZ q Hq. destruct (HQ y r h Z i Hg (proj1 Hh) HZ Hi) as (Q1 & Q2). specialize (K1 y r h (Z i) Hr Hg Hh Q1 Q2).
    specialize (K1 (fun p Hp => K y r h Z Hr Hg Hh HZ i p Hi Hp) q Hq). unfold BK in K1. erewrite lsum_ext in K1; [exact K1|]. intros t _. rewrite stage_lift. reflexivity.
  - exists C'. split; [exact HC'|]. intros. apply (K' i ltac:(assumption) y r h Z); assumption.
Qed.
Lemma stages_small y r h Z i : good y r -> 0 <= h -> stages y r h Z -> (i < st)%nat -> small r (Z i) /\ small (asum * M * h) (Z i).
Proof. intros Hg Hh HZ Hi. split; [apply HZ; exact Hi|apply (stage_linear y r h Z i); assumption]. Qed.
Definition slope_expansion k (Hk : (S k <= P)%nat) := slope_expansion_of stages k Hk stages_small.

Lemma vertices_pos t : (1 <= vertices t)%nat. Proof. destruct t. simpl. lia. Qed.
Lemma h_slope h (w : tree -> R) (y : vec) q L : lsum (fun t => h ^ vertices t * w t * tw t * elem y t q) L = h * lsum (fun t => h ^ (vertices t - 1) * w t * tw t * elem y t q) L.
Proof.
  rewrite <- lsum_scal. apply lsum_ext. intros t _. pose proof (vertices_pos t). replace (vertices t) with (S (vertices t - 1)) at 1 by lia. simpl. ring.
Qed.
(** weighted sums of the slopes *)
Lemma slope_sum (w : nat -> R) h y q L : Rsum st (fun j => w j * lsum (fun t => h ^ (vertices t - 1) * stage_weight st a t j * tw t * elem y t q) L) =
  lsum (fun t => h ^ (vertices t - 1) * Rsum st (fun j => w j * stage_weight st a t j) * tw t * elem y t q) L.
Proof.
  transitivity (Rsum st (fun j => lsum (fun t => w j * (h ^ (vertices t - 1) * stage_weight st a t j * tw t * elem y t q)) L)).
  - apply Rsum_ext. intros j _. rewrite lsum_scal. reflexivity.
  - rewrite lsum_Rsum. apply lsum_ext. intros t _. rewrite <- Rsum_scal, <- !Rsum_scal_r. apply Rsum_ext. intros j _. ring.
Qed.

Lemma stage_expansion k : (k <= P)%nat -> exists C, 0 <= C /\ forall y r h Z, 0 <= r -> good y r -> 0 <= h <= 1 -> stages y r h Z ->
  forall i q, (i < st)%nat -> (q < n)%nat -> Rabs (Z i q - BS (stage_u i) y k h q) <= C * h ^ S k.
Proof.
  induction k as [|k IH]; intros Hk.
  - exists (asum * M). split; [apply Rmult_le_pos; [apply asum_pos|exact HM]|]. intros y r h Z Hr Hg Hh HZ i q Hi Hq. unfold BS. simpl TL. simpl lsum. rewrite Rminus_0_r. simpl pow. rewrite Rmult_1_r.
    apply (stage_linear y r h Z i Hg (proj1 Hh) HZ Hi). exact Hq.
  - destruct (slope_expansion k Hk (IH ltac:(lia))) as (C & HC & K). exists (asum * C). split; [apply Rmult_le_pos; [apply asum_pos|exact HC]|].
    intros y r h Z Hr Hg Hh HZ i q Hi Hq. rewrite (proj2 (HZ i Hi) q Hq). unfold BS. rewrite h_slope. unfold stage_u. rewrite <- (slope_sum (a i)).
    rewrite <- Rmult_minus_distr_l, <- Rsum_minus, Rabs_mult, (Rabs_pos_eq h) by lra.
    replace (asum * C * h ^ S (S k)) with (h * (asum * (C * h ^ S k))) by (simpl; ring). apply Rmult_le_compat_l; [lra|].
    erewrite Rsum_ext; [|intros j _; rewrite <- Rmult_minus_distr_l; reflexivity].
    assert (0 <= C * h ^ S k) by (apply Rmult_le_pos; [exact HC|apply pow_le; lra]).
    eapply Rle_trans; [apply weighted_bound with (B := C * h ^ S k)|apply Rmult_le_compat_r; [assumption|apply arow; exact Hi]]; [assumption|].
    intros j Hj. apply (K y r h Z); assumption.
Qed.

(** * The local error *)
Theorem local_error_of (Q : vec -> R -> R -> (nat -> vec) -> Prop) :
  (forall y r h Z i, good y r -> 0 <= h -> Q y r h Z -> (i < st)%nat -> small r (Z i) /\ small (asum * M * h) (Z i)) ->
  (exists C, 0 <= C /\ forall y r h Z, 0 <= r -> good y r -> 0 <= h <= 1 -> Q y r h Z -> forall i q, (i < st)%nat -> (q < n)%nat -> Rabs (Z i q - BS (stage_u i) y (P - 1) h q) <= C * h ^ S (P - 1)) ->
  (1 <= P)%nat -> has_order st a b P -> exists C, 0 <= C /\ forall y r X h Z, 0 <= r -> good y r -> 0 <= h <= 1 -> flows X y r h -> Q y r h Z ->
  forall q, (q < n)%nat -> Rabs (X h q - (y q + h * Rsum st (fun i => b i * df [] (fun p => y p + Z i p) q))) <= C * h ^ S P.
Proof.
  intros HQ Hexpn HP1 Hord. destruct (exact_expansion P (le_n P)) as (C1 & HC1 & K1).
  assert (HP : P = S (P - 1)) by lia.
  destruct (slope_expansion_of Q (P - 1) ltac:(lia) HQ Hexpn) as (C2 & HC2 & K2). rewrite <- HP in K2.
  destruct (elem_bound P) as (C3 & HC3 & K3).
  set (C4 := lsum (fun t => Rabs ((exact_u t - weight st a b t) * tw t) * C3) (TL P)).
  assert (HC4 : 0 <= C4) by (apply lsum_nonneg; intros; apply Rmult_le_pos; [apply Rabs_pos|exact HC3]).
  pose proof bsum_pos as Hb.
  exists (C1 + bsum * C2 + C4). split; [pose proof (Rmult_le_pos _ _ Hb HC2); lra|].
  intros y r X h Z Hr Hg Hh HX HZ q Hq.
  specialize (K1 y r X h Hr Hg Hh HX h q ltac:(lra) Hq).
  set (N := lsum (fun t => h ^ (vertices t - 1) * weight st a b t * tw t * elem y t q) (TL P)).
  assert (E2 : Rabs (Rsum st (fun i => b i * df [] (fun p => y p + Z i p) q) - N) <= bsum * (C2 * h ^ P)).
  { unfold N, weight. rewrite <- (slope_sum b), <- Rsum_minus. erewrite Rsum_ext; [|intros j _; rewrite <- Rmult_minus_distr_l; reflexivity].
    apply weighted_bound; [apply Rmult_le_pos; [exact HC2|apply pow_le; lra]|]. intros j Hj. apply (K2 y r h Z); assumption. }
  assert (E3 : Rabs (BS exact_u y P h q - h * N) <= C4 * h ^ S P).
  { unfold N, BS. rewrite <- h_slope, <- lsum_minus. eapply Rle_trans; [apply lsum_abs|]. unfold C4. rewrite (Rmult_comm _ (h ^ S P)), <- lsum_scal. apply lsum_le. intros t Ht.
    replace (h ^ vertices t * exact_u t * tw t * elem y t q - h ^ vertices t * weight st a b t * tw t * elem y t q) with (h ^ vertices t * ((exact_u t - weight st a b t) * tw t) * elem y t q) by ring.
    assert (Hh1 : 0 <= h ^ S P) by (apply pow_le; lra). pose proof (Rabs_pos ((exact_u t - weight st a b t) * tw t)).
    destruct (le_lt_dec (vertices t) P) as [Hv|Hv].
    - rewrite (Hord t Hv). unfold exact_u. replace ((/ INR (density t) - 1 / INR (density t)) * tw t) with 0 by (unfold Rdiv; ring).
      rewrite Rmult_0_r, Rmult_0_l, Rabs_R0. rewrite Rmult_0_l, Rmult_0_r. lra.
    - rewrite !Rabs_mult. rewrite (Rabs_pos_eq (h ^ vertices t)) by (apply pow_le; lra). rewrite <- Rabs_mult, Rmult_assoc.
      apply Rmult_le_compat; [apply pow_le; lra|apply Rmult_le_pos; apply Rabs_pos|apply pow_small; [exact Hh|lia]|].
      apply Rmult_le_compat_l; [apply Rabs_pos|]. apply (K3 y r Hr Hg t Ht). exact Hq. }
  set (S_ := Rsum st _) in * . set (Bx := BS exact_u y P h q) in * .
  replace (X h q - (y q + h * S_)) with ((X h q - y q - Bx) + (Bx - h * N) + - (h * (S_ - N))) by ring.
  eapply Rle_trans; [apply Rabs_triang|]. rewrite Rabs_Ropp, Rabs_mult, (Rabs_pos_eq h) by lra.
  assert (h * Rabs (S_ - N) <= bsum * C2 * h ^ S P).
  { replace (bsum * C2 * h ^ S P) with (h * (bsum * (C2 * h ^ P))) by (simpl; ring). apply Rmult_le_compat_l; [lra|exact E2]. }
  pose proof (Rabs_triang (X h q - y q - Bx) (Bx - h * N)). lra.
Qed.
Theorem local_error : (1 <= P)%nat -> has_order st a b P -> exists C, 0 <= C /\ forall y r X h Z, 0 <= r -> good y r -> 0 <= h <= 1 -> flows X y r h -> stages y r h Z ->
  forall q, (q < n)%nat -> Rabs (X h q - (y q + h * Rsum st (fun i => b i * df [] (fun p => y p + Z i p) q))) <= C * h ^ S P.
Proof. intros HP1. exact (local_error_of stages stages_small (stage_expansion (P - 1) ltac:(lia)) HP1). Qed.
End Order.
