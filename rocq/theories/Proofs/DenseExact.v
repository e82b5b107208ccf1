(** Dense output: which methods have it, and exactness of its weights for polynomials. *)
From Coq Require Import QArith Reals Lra.
From Coquelicot Require Import Coquelicot.
From Verif Require Import Model.Base Model.Scalar Model.LinAlg Model.Enums Model.Coeffs Model.Collocation Model.ErkCoeffs Model.IrkCoeffs.
From Verif Require Import Spec.Sums Spec.CollocationSpec Spec.Methods Proofs.SumsProofs Proofs.CollocationProofs Proofs.CollocationGeneric.
From Verif Require Import Proofs.QuadField Proofs.OrderProofs Proofs.IrkCoeffsProofs Proofs.DenseProofs Proofs.TablesGeneric Proofs.TablesFinal.
Local Open Scope R_scope.

(** ** Polynomials as lists of coefficients *)
Fixpoint peval (l : list R) (x : R) : R := match l with [] => 0 | a :: l => a + x * peval l x end.
Fixpoint psum (l m : list R) : list R :=
  match l, m with [], m => m | l, [] => l | a :: l, b :: m => (a + b) :: psum l m end.
Lemma psum_eval l m x : peval (psum l m) x = peval l x + peval m x.
Proof. revert m. induction l as [|a l IH]; intros [|b m]; simpl; try ring. rewrite IH. ring. Qed.
Lemma psum_length l m : length (psum l m) = Nat.max (length l) (length m).
Proof. revert m. induction l as [|a l IH]; intros [|b m]; simpl; try reflexivity. rewrite IH. reflexivity. Qed.
Lemma pscal_eval a l x : peval (map (Rmult a) l) x = a * peval l x.
Proof. induction l as [|b l IH]; simpl; [ring|]. rewrite IH. ring. Qed.

(** Division by x - r. *)
Lemma pdiv r l : exists q, length q = (length l - 1)%nat /\ forall x, peval l x = (x - r) * peval q x + peval l r.
Proof.
  induction l as [|a l (q & Lq & Hq)].
  - exists []. split; [reflexivity|]. intros x. simpl. ring.
  - destruct l as [|b l].
    + exists []. split; [reflexivity|]. intros x. simpl. ring.
    + exists (peval (b :: l) r :: q). split; [simpl in *; lia|]. intros x.
      cbn [peval]. cbn [peval] in Hq. rewrite Hq. ring.
Qed.
Lemma proots n : forall l c, length l = n -> length c = n ->
  (forall i j, (i < n)%nat -> (j < n)%nat -> i <> j -> ventry c i <> ventry c j) ->
  (forall i, (i < n)%nat -> peval l (ventry c i) = 0) -> forall x, peval l x = 0.
Proof.
  induction n as [|n IH]; intros l c Ll Lc Hd Hr x.
  - destruct l; [reflexivity|discriminate].
  - destruct c as [|r c]; [discriminate|]. destruct (pdiv r l) as (q & Lq & Hq).
    pose proof (Hr 0%nat ltac:(lia)) as H0. change (ventry (r :: c) 0) with r in H0. rewrite Hq, H0.
    rewrite (IH q c); [ring|lia|simpl in Lc; lia| |].
    + intros i j Hi Hj Hne. apply (Hd (S i) (S j)); lia.
    + intros i Hi. pose proof (Hr (S i) ltac:(lia)) as HS. change (ventry (r :: c) (S i)) with (ventry c i) in HS.
      rewrite Hq, H0, Rplus_0_r in HS. apply Rmult_integral in HS. destruct HS as [HS|HS]; [|exact HS]. exfalso.
      apply (Hd 0%nat (S i)); try lia. change (r = ventry c i). lra.
Qed.

(** The Lagrange polynomials are polynomials with [length c] coefficients. *)
Lemma lprod_poly m (a b : nat -> R) j : exists l, length l = (S m - (if (j <? m)%nat then 1 else 0))%nat /\
  forall x, peval l x = Rprod m (fun k => if (k =? j)%nat then 1 else a k + b k * x).
Proof.
  induction m as [|m (l & Ll & Hl)].
  - exists [1]. split; [destruct (Nat.ltb_spec j 0); [lia|reflexivity]|]. intros x. simpl. ring.
  - cbn [Rprod]. destruct (Nat.eqb_spec m j) as [->|Hn].
    + exists l. split; [|intros x; rewrite Hl; ring]. rewrite Ll.
      destruct (Nat.ltb_spec j j); [lia|]. destruct (Nat.ltb_spec j (S j)); lia.
    + exists (psum (map (Rmult (a m)) l) (0 :: map (Rmult (b m)) l)). split.
      * rewrite psum_length. simpl. rewrite !map_length, Ll. destruct (Nat.ltb_spec j m); destruct (Nat.ltb_spec j (S m)); lia.
      * intros x. rewrite psum_eval. cbn [peval]. rewrite !pscal_eval, <- Hl. ring.
Qed.
Lemma Rprod_ext n f g : (forall k, (k < n)%nat -> f k = g k) -> Rprod n f = Rprod n g.
Proof. induction n as [|n IH]; intros H; [reflexivity|]. cbn [Rprod]. rewrite H, IH by (intros; try apply H; lia). reflexivity. Qed.
Lemma lagrange_poly c j : (j < length c)%nat -> exists l, length l = length c /\ forall x, peval l x = lagrange c j x.
Proof.
  intros Hj. destruct (lprod_poly (length c) (fun k => - ventry c k / (ventry c j - ventry c k)) (fun k => / (ventry c j - ventry c k)) j) as (l & Ll & Hl).
  exists l. split; [destruct (Nat.ltb_spec j (length c)); lia|]. intros x. rewrite Hl. unfold lagrange. apply Rprod_ext.
  intros k Hk. destruct (k =? j)%nat; [reflexivity|]. unfold Rdiv. ring.
Qed.
Lemma lcomb_poly n m (g : nat -> R) (f : nat -> R -> R) : (forall j, (j < m)%nat -> exists l, length l = n /\ forall x, peval l x = f j x) ->
  exists l, (length l <= n)%nat /\ forall x, peval l x = Rsum m (fun j => g j * f j x).
Proof.
  induction m as [|m IH]; intros H.
  - exists []. split; [simpl; lia|]. reflexivity.
  - destruct IH as (l & Ll & Hl); [intros j Hj; apply H; lia|]. destruct (H m ltac:(lia)) as (p & Lp & Hp).
    exists (psum l (map (Rmult (g m)) p)). split; [rewrite psum_length, map_length; lia|].
    intros x. rewrite psum_eval, pscal_eval, Hl, Hp. reflexivity.
Qed.
Lemma ppad n l : (length l <= n)%nat -> exists p, length p = n /\ forall x, peval p x = peval l x.
Proof.
  intros H. exists (psum l (repeat 0 n)). split; [rewrite psum_length, repeat_length; lia|]. intros x. rewrite psum_eval.
  assert (E : peval (repeat 0 n) x = 0) by (clear; induction n as [|n IH]; simpl; [reflexivity|rewrite IH; ring]). rewrite E. ring.
Qed.

(** Interpolation in n distinct nodes reproduces polynomials with n coefficients. *)
Lemma lagrange_exact c p x : (length p <= length c)%nat ->
  (forall i j, (i < length c)%nat -> (j < length c)%nat -> i <> j -> ventry c i <> ventry c j) ->
  Rsum (length c) (fun j => peval p (ventry c j) * lagrange c j x) = peval p x.
Proof.
  intros Lp Hd. set (n := length c) in * .
  destruct (lcomb_poly n n (fun j => peval p (ventry c j)) (lagrange c) ltac:(intros j Hj; apply lagrange_poly; exact Hj)) as (l & Ll & Hl).
  destruct (ppad n (psum l (map (Rmult (-1)) p)) ltac:(rewrite psum_length, map_length; lia)) as (d & Ld & Hdv).
  assert (E : peval d x = 0).
  { apply (proots n d c Ld eq_refl Hd). intros i Hi. rewrite Hdv, psum_eval, pscal_eval, Hl.
    rewrite (Rsum_single n i); [|exact Hi|].
    - rewrite lagrange_delta by assumption. rewrite Nat.eqb_refl. ring.
    - intros j Hj Hne. rewrite lagrange_delta by assumption. destruct (Nat.eqb_spec i j); [lia|ring]. }
  rewrite Hdv, psum_eval, pscal_eval, Hl in E. lra.
Qed.

Lemma is_RInt_Rsum n (g : nat -> R) (f : nat -> R -> R) a b (v : nat -> R) : (forall j, (j < n)%nat -> is_RInt (f j) a b (v j)) ->
  is_RInt (fun x => Rsum n (fun j => g j * f j x)) a b (Rsum n (fun j => g j * v j)).
Proof.
  induction n as [|n IH]; intros H.
  - cbn [Rsum]. pose proof (is_RInt_const (V := R_NormedModule) a b 0) as K.
    refine (eq_rect _ (fun z : R => is_RInt (fun _ : R => 0) a b z) K 0 _). unfold scal; simpl; unfold mult; simpl. ring.
  - cbn [Rsum]. apply (is_RInt_plus (V := R_NormedModule)); [apply IH; intros; apply H; lia|].
    apply (is_RInt_scal (V := R_NormedModule)). apply H. lia.
Qed.

Lemma peval_Rsum l x : peval l x = Rsum (length l) (fun k => ventry l k * x ^ k).
Proof.
  induction l as [|a l IH]; [reflexivity|]. cbn [length peval]. rewrite Rsum_shift, IH. rewrite <- Rsum_scal.
  change (ventry (a :: l) 0) with a. rewrite Rmult_1_r. f_equal. apply Rsum_ext. intros k Hk. change (ventry (a :: l) (S k)) with (ventry l k). simpl. ring.
Qed.

Section Exact.
  Context {E : Env R} {LA : LinAlg R} {X : ExactProducts LA}.
  Lemma dense_exact c B theta : (2 <= length c)%nat ->
    (forall i j, (i < length c)%nat -> (j < length c)%nat -> i <> j -> ventry c i <> ventry c j) ->
    collocation_interpolate_coeffs c = Ok B ->
    exists w, project_b theta (length c) B = Ok w /\ length w = length c /\
    forall a, (length a <= length c)%nat ->
      is_RInt (fun x => Rsum (length a) (fun k => ventry a k * x ^ k)) 0 theta
        (Rsum (length c) (fun j => ventry w j * Rsum (length a) (fun k => ventry a k * ventry c j ^ k))).
  Proof.
    intros H2 Hd HB. destruct (@collocation_integrates E c LA X theta H2) as (B' & w & HB' & Hw & Lw & Hi).
    rewrite HB in HB'. injection HB' as <-. exists w. split; [exact Hw|]. split; [exact Lw|]. intros a La.
    apply (is_RInt_ext (fun x => Rsum (length c) (fun j => peval a (ventry c j) * lagrange c j x))).
    - intros x _. rewrite lagrange_exact by assumption. apply peval_Rsum.
    - rewrite (Rsum_ext (length c) _ (fun j => peval a (ventry c j) * ventry w j)).
      + apply is_RInt_Rsum. exact Hi.
      + intros j Hj. rewrite peval_Rsum. ring.
  Qed.
End Exact.

(** ** Which methods have dense output (any arithmetic) *)
Definition dense_methods : list Z := [RADAU_IIA_32; RADAU_IIA_53; RADAU_IIA_95; RADAU_IIA_137; LOBATTO_IIIC_85].

Section Generic.
  Context {T : Type} {HS : Scalar T} {HE : Env T} {LA : LinAlg T}.
  Lemma interp_of_table m sc : In m dense_methods -> irk_table (T := T) m = Ok sc -> collocation_interpolate_coeffs (sc_c sc) = Ok (sc_b_interp sc).
  Proof.
    unfold dense_methods. intros [<-|[<-|[<-|[<-|[<-|[]]]]]].
    - change (irk_table RADAU_IIA_32) with (irk_radau_iia_32 (T := T)). unfold irk_radau_iia_32. cbv zeta.
      destruct (collocation_interpolate_coeffs _) as [B|] eqn:HB; [|discriminate]. cbn [rbind]. intros [= <-]. exact HB.
    - change (irk_table RADAU_IIA_53) with (irk_radau_iia_53 (T := T)). unfold irk_radau_iia_53. cbv zeta.
      destruct (collocation_interpolate_coeffs _) as [B|] eqn:HB; [|discriminate]. cbn [rbind]. intros [= <-]. exact HB.
    - change (irk_table RADAU_IIA_95) with (irk_radau_iia_95 (T := T)). unfold irk_radau_iia_95. cbv zeta.
      destruct (collocation_interpolate_coeffs _) as [B|] eqn:HB; [|discriminate]. cbn [rbind]. intros [= <-]. exact HB.
    - change (irk_table RADAU_IIA_137) with (irk_radau_iia_137 (T := T)). unfold irk_radau_iia_137. cbv zeta.
      destruct (collocation_interpolate_coeffs _) as [B|] eqn:HB; [|discriminate]. cbn [rbind]. intros [= <-]. exact HB.
    - change (irk_table LOBATTO_IIIC_85) with (irk_lobatto_iiic_85 (T := T)). unfold irk_lobatto_iiic_85. cbv zeta.
      destruct (collocation_interpolate_coeffs _) as [B|] eqn:HB; [|discriminate]. cbn [rbind]. intros [= <-]. exact HB.
  Qed.
  Lemma spowers_len (th tt : T) n : length (spowers th tt n) = n.
  Proof. revert tt. induction n as [|n IH]; intros tt; simpl; [reflexivity|]. rewrite IH. reflexivity. Qed.
  Lemma project_returns (th : T) n f : (0 < n)%nat -> exists w, project_b th n (mtab n n f) = Ok w /\ length w = n.
  Proof.
    intros Hn. unfold project_b, msize. rewrite mtab_nrows, mtab_ncols.
    replace (n * n =? 0)%nat with false by (symmetry; apply Nat.eqb_neq; nia). rewrite andb_false_r.
    unfold mv. rewrite mtab_ncols, rev_length, spowers_len, Nat.eqb_refl, mtab_nrows. eexists. split; [reflexivity|apply vtab_length].
  Qed.
  Lemma project_empty (th : T) n : project_b th n mat_empty = (if ndebug then if (n =? 0)%nat then Ok [] else Err (EThrow ELogic) else Err EAbort) /\
    erk_project_b th n mat_empty = project_b th n mat_empty.
  Proof.
    split; [|reflexivity]. unfold project_b. destruct ndebug; [|reflexivity]. cbn [negb andb].
    unfold mv. rewrite rev_length, spowers_len. destruct n; reflexivity.
  Qed.

  Lemma no_interp m sc : In m implicit_methods -> ~ In m dense_methods -> irk_table (T := T) m = Ok sc -> sc_b_interp sc = mat_empty.
  Proof.
    intros Hi Hn Ht. simpl in Hi. repeat (destruct Hi as [<-|Hi]); try (exfalso; apply Hn; simpl; tauto); try contradiction;
      injection Ht as <-; reflexivity.
  Qed.
  Lemma no_interp_erk m sc : erk_table (T := T) m = Ok sc -> sc_b_interp sc = mat_empty.
  Proof.
    intros Ht. destruct (in_dec Z.eq_dec m explicit_methods) as [Hi|Hi].
    - simpl in Hi. repeat (destruct Hi as [<-|Hi]); try contradiction; injection Ht as <-; reflexivity.
    - rewrite (erk_table_unsupported m Hi) in Ht. injection Ht as <-. reflexivity.
  Qed.

  Lemma implicit_dense_output m sc theta : irk_get_coefficients (T := T) m = Ok sc -> In m implicit_methods ->
    if in_dec Z.eq_dec m dense_methods
    then exists w, project_b theta (length (sc_b sc)) (sc_b_interp sc) = Ok w /\ length w = length (sc_b sc)
    else project_b theta (length (sc_b sc)) (sc_b_interp sc) = Err (if ndebug then EThrow ELogic else EAbort).
  Proof.
    intros Hg Hi. destruct (irk_get_ok (T := T) m) as (sc' & Hg' & Ht & Hd). rewrite Hg in Hg'. injection Hg' as <-.
    unfold dims_ok in Hd. rewrite !andb_true_iff, !Nat.eqb_eq in Hd. destruct Hd as [[[[Hb Hc] _] _] _].
    assert (Hs : (0 < length (sc_b sc))%nat) by (rewrite Hb; simpl in Hi; repeat (destruct Hi as [<-|Hi]); try contradiction; vm_compute; lia).
    destruct (in_dec Z.eq_dec m dense_methods) as [Hm|Hm].
    - pose proof (interp_of_table m sc Hm Ht) as HB. destruct (collocation_ok (sc_c sc)) as [f Hf]. rewrite Hf in HB. injection HB as <-.
      rewrite Hb, Hc in * . apply project_returns. exact Hs.
    - rewrite (no_interp m sc Hi Hm Ht). rewrite (proj1 (project_empty theta _)). destruct ndebug; [|reflexivity].
      destruct (Nat.eqb_spec (length (sc_b sc)) 0); [lia|reflexivity].
  Qed.
  Lemma explicit_dense_output m sc theta : erk_get_coefficients (T := T) m = Ok sc -> In m explicit_methods ->
    erk_project_b theta (length (sc_b sc)) (sc_b_interp sc) = Err (if ndebug then EThrow ELogic else EAbort).
  Proof.
    intros Hg Hi. destruct (erk_get_ok (T := T) m) as (sc' & Hg' & Ht & Hd). rewrite Hg in Hg'. injection Hg' as <-.
    unfold dims_ok in Hd. rewrite !andb_true_iff, !Nat.eqb_eq in Hd. destruct Hd as [[[[Hb Hc] _] _] _].
    assert (Hs : (0 < length (sc_b sc))%nat) by (rewrite Hb; simpl in Hi; repeat (destruct Hi as [<-|Hi]); try contradiction; vm_compute; lia).
    rewrite (no_interp_erk m sc Ht), (proj2 (project_empty theta _)), (proj1 (project_empty theta _)). destruct ndebug; [|reflexivity].
    destruct (Nat.eqb_spec (length (sc_b sc)) 0); [lia|reflexivity].
  Qed.
End Generic.

(** ** Exactness for the five methods *)
Section Five.
  Context {E : Env R} {LA : LinAlg R} {X : ExactProducts LA}.
  Lemma dense_method_nodes m sc : In m dense_methods -> irk_get_coefficients (T := R) m = Ok sc ->
    collocation_interpolate_coeffs (sc_c sc) = Ok (sc_b_interp sc) /\ length (sc_b sc) = length (sc_c sc) /\ (2 <= length (sc_c sc))%nat /\
    (forall i j, (i < length (sc_c sc))%nat -> (j < length (sc_c sc))%nat -> i <> j -> ventry (sc_c sc) i <> ventry (sc_c sc) j).
  Proof.
    assert (G : forall d x r s, sc_match d x r -> ((0 <=? d)%Z && (2 <=? s)%nat && dims_ok x s && distinct_check d (sc_c x) s) = true ->
      length (sc_b r) = length (sc_c r) /\ (2 <= length (sc_c r))%nat /\
      (forall i j, (i < length (sc_c r))%nat -> (j < length (sc_c r))%nat -> i <> j -> ventry (sc_c r) i <> ventry (sc_c r) j)).
    { intros d x r s Hm Hc. rewrite !andb_true_iff, Z.leb_le, Nat.leb_le in Hc. destruct Hc as [[[H1 H2] H3] H4].
      destruct (dims_facts x s H3) as (Lb & Lc & _). rewrite (m_b _ _ _ Hm), (m_c _ _ _ Hm), !map_length, Lb, Lc. split; [reflexivity|]. split; [exact H2|].
      apply distinct_check_ok; assumption. }
    intros Hi Hg. pose proof Hi as Hi'. unfold dense_methods in Hi. destruct Hi as [<-|[<-|[<-|[<-|[<-|[]]]]]].
    - destruct match_r32 as (r & Ht & Hm). rewrite (irk_get_det _ _ _ Hg Ht). split; [exact (interp_of_table _ _ Hi' Ht)|]. apply (G 2%Z q_r32 r 2%nat Hm). vm_compute. reflexivity.
    - destruct match_r53 as (r & Ht & Hm). rewrite (irk_get_det _ _ _ Hg Ht). split; [exact (interp_of_table _ _ Hi' Ht)|]. apply (G 6%Z q_r53 r 3%nat Hm). vm_compute. reflexivity.
    - destruct match_r95 as (r & Ht & Hm). rewrite (irk_get_det _ _ _ Hg Ht). split; [exact (interp_of_table _ _ Hi' Ht)|]. apply (G 2%Z q_r95 r 5%nat Hm). vm_compute. reflexivity.
    - destruct match_r137 as (r & Ht & Hm). rewrite (irk_get_det _ _ _ Hg Ht). split; [exact (interp_of_table _ _ Hi' Ht)|]. apply (G 2%Z q_r137 r 7%nat Hm). vm_compute. reflexivity.
    - destruct match_c85 as (r & Ht & Hm). rewrite (irk_get_det _ _ _ Hg Ht). split; [exact (interp_of_table _ _ Hi' Ht)|]. apply (G 21%Z q_c85 r 5%nat Hm). vm_compute. reflexivity.
  Qed.
  Lemma dense_polynomials m sc theta : In m dense_methods -> irk_get_coefficients (T := R) m = Ok sc ->
    exists w, project_b theta (length (sc_b sc)) (sc_b_interp sc) = Ok w /\ length w = length (sc_b sc) /\
    forall a, (length a <= length (sc_b sc))%nat ->
      is_RInt (fun x => Rsum (length a) (fun k => ventry a k * x ^ k)) 0 theta
        (Rsum (length (sc_b sc)) (fun j => ventry w j * Rsum (length a) (fun k => ventry a k * ventry (sc_c sc) j ^ k))).
  Proof.
    intros Hi Hg. destruct (dense_method_nodes m sc Hi Hg) as (HB & Lb & H2 & Hd). rewrite Lb. apply dense_exact; assumption.
  Qed.
End Five.

(** ** The methods with decimal tables: dense output is close to the tableau *)
Fixpoint zlin (a prev : Z) (l : list Z) : list Z :=
  match l with [] => [prev] | b :: l => (prev + a * b)%Z :: zlin a b l end.
Section Weights.
  (** Candidate weights for the nodes N/10^39; they are checked below. *)
  Definition zbasis (N : list Z) (i : nat) : list Z :=
    fold_left (fun p k => if (k =? i)%nat then p else zlin (- nth k N 0)%Z 0%Z p) (seq 0 (length N)) [1%Z].
  Definition zden (N : list Z) (i : nat) : Z :=
    fold_left (fun p k => if (k =? i)%nat then p else (p * (nth i N 0 - nth k N 0))%Z) (seq 0 (length N)) 1%Z.
  Definition to_z (q : Q) : Z := (Qnum q * 10 ^ 39 / Zpos (Qden q))%Z.
  Definition zvan (N : list Z) : Z :=
    fold_left (fun p i => fold_left (fun p k => (p * (nth i N 0 - nth k N 0))%Z) (seq 0 i) p) (seq 0 (length N)) 1%Z.
  Definition znum (N : list Z) (Th : Z) (i : nat) : Z :=
    let l := zbasis N i in
    fold_right (fun k r => (nth k l 0 * Th ^ Z.of_nat (S k) * (420 / Z.of_nat (S k)) + r)%Z) 0%Z (seq 0 (length l)).
  Definition zweights (N : list Z) (V Th : Z) : list Z := map (fun i => (znum N Th i * (V / zden N i))%Z) (seq 0 (length N)).

  Definition zsum (l : list Z) : Z := fold_right Z.add 0%Z l.
  Definition zmom (W N : list Z) (k : nat) : Z := zsum (map (fun p => (fst p * snd p ^ Z.of_nat k)%Z) (combine W N)).
  Lemma zmom_R n W N k : length W = n -> length N = n -> IZR (zmom W N k) = Rsum n (fun j => IZR (nth j W 0%Z) * IZR (nth j N 0%Z) ^ k).
  Proof.
    unfold zmom. revert W N. induction n as [|n IH]; intros [|a W] [|b N] HW HN; try discriminate; [reflexivity|].
    rewrite Rsum_shift. cbn [combine map zsum fold_right fst snd nth]. rewrite plus_IZR, mult_IZR, <- pow_IZR. f_equal. apply IH; auto.
  Qed.
  (** W/D are the weights for theta = Th/P and the nodes N/P *)
  Definition zmom_check (W N : list Z) (D P Th : Z) (s : nat) : bool :=
    forallb (fun k => (Z.of_nat (S k) * P * zmom W N k =? D * Th ^ Z.of_nat (S k))%Z) (seq 0 s).
  Definition over (P : Z) (N : list Z) : list R := map (fun n => IZR n / IZR P) N.
  Lemma over_nth P N j : ventry (over P N) j = IZR (nth j N 0%Z) / IZR P.
  Proof.
    unfold over, ventry. replace 0 with (IZR 0 / IZR P) at 1 by (unfold Rdiv; ring). apply (map_nth (fun n => IZR n / IZR P)).
  Qed.
  Lemma zmom_check_ok W N D P Th s : length W = s -> length N = s -> (0 < D)%Z -> (0 < P)%Z -> zmom_check W N D P Th s = true ->
    forall k, (k < s)%nat -> Rsum s (fun j => ventry (over D W) j * ventry (over P N) j ^ k) = (IZR Th / IZR P) ^ S k / INR (S k).
  Proof.
    intros HW HN HD HP H k Hk. unfold zmom_check in H. rewrite forallb_forall in H. specialize (H k ltac:(apply in_seq; lia)).
    apply Z.eqb_eq, (f_equal IZR) in H. rewrite !mult_IZR, <- pow_IZR, (zmom_R s) in H by assumption.
    apply IZR_lt in HD, HP. assert (HS : INR (S k) <> 0) by (apply not_0_INR; lia). rewrite <- INR_IZR_INZ in H.
    rewrite (Rsum_ext s _ (fun j => / (IZR D * IZR P ^ k) * (IZR (nth j W 0%Z) * IZR (nth j N 0%Z) ^ k))).
    2: { intros j Hj. rewrite !over_nth. unfold Rdiv. rewrite Rpow_mult_distr, pow_inv. field. split; [apply pow_nonzero|]; lra. }
    rewrite Rsum_scal. unfold Rdiv at 2. rewrite Rpow_mult_distr, pow_inv.
    assert (HPk : IZR P ^ k <> 0) by (apply pow_nonzero; lra).
    apply (Rmult_eq_reg_l (INR (S k) * IZR P * (IZR D * IZR P ^ k))).
    2: { repeat apply Rmult_integral_contrapositive_currified; try assumption; lra. }
    transitivity (INR (S k) * IZR P * Rsum s (fun j => IZR (nth j W 0%Z) * IZR (nth j N 0%Z) ^ k)); [field; split; [assumption|lra]|].
    rewrite H. simpl (IZR P ^ S k). field. repeat split; try assumption; lra.
  Qed.
  Definition qclose (eps : Q) (W : list Z) (D : positive) (v : list Q) (s : nat) : bool :=
    forallb (fun i => Qle_bool ((nth i W 0%Z # D) - nth i v 0%Q) eps && Qle_bool (nth i v 0%Q - (nth i W 0%Z # D)) eps) (seq 0 s).
  Lemma qclose_ok eps W D v s : qclose eps W D v s = true -> forall i, (i < s)%nat -> Rabs (ventry (over (Zpos D) W) i - Q2R (nth i v 0%Q)) <= Q2R eps.
  Proof.
    intros H i Hi. unfold qclose in H. rewrite forallb_forall in H. specialize (H i ltac:(apply in_seq; lia)).
    rewrite !andb_true_iff, !Qle_bool_iff in H. destruct H as [H3 H4].
    apply Qreals.Qle_Rle in H3, H4. rewrite Qreals.Q2R_minus in H3, H4. rewrite over_nth.
    change (Q2R (nth i W 0%Z # D)) with (IZR (nth i W 0%Z) * / IZR (Zpos D)) in * . unfold Rdiv. apply Rabs_le. lra.
  Qed.
  Lemma ventry_Q2R (l : list Q) i : ventry (map Q2R l) i = Q2R (nth i l 0%Q).
  Proof. unfold ventry. replace 0 with (Q2R 0) by (unfold Q2R; simpl; field). apply map_nth. Qed.
  Lemma rational_list d (l : list qs) : forallb (fun x => Qeq_bool (q1 x) 0) l = true -> map (toR d) l = map Q2R (map q0 l).
  Proof.
    induction l as [|a l IH]; [reflexivity|]. simpl. rewrite andb_true_iff. intros [Ha Hl]. rewrite IH by exact Hl.
    rewrite toR_rational by exact Ha. reflexivity.
  Qed.
  Definition same_nodes (P : positive) (N : list Z) (c : list qs) : bool :=
    (length N =? length c)%nat && forallb (fun p => Qeq_bool (q1 (snd p)) 0 && Qeq_bool (q0 (snd p)) (fst p # P)) (combine N c).
  Lemma same_nodes_ok d P N c : same_nodes P N c = true -> map (toR d) c = over (Zpos P) N.
  Proof.
    unfold same_nodes. rewrite andb_true_iff, Nat.eqb_eq. intros [L H]. revert N L H. induction c as [|a c IH]; intros [|n N] L H; try discriminate; [reflexivity|].
    simpl in H. rewrite !andb_true_iff in H. destruct H as [[H1 H2] H3]. simpl. rewrite (IH N) by (auto; simpl in L; lia). f_equal.
    rewrite toR_rational by exact H1. apply Qeq_bool_eq, Qreals.Qeq_eqR in H2. rewrite H2. reflexivity.
  Qed.
End Weights.

Section Decimal.
  Context {E : Env R} {LA : LinAlg R} {X : ExactProducts LA}.
  Definition rational (l : list qs) : bool := forallb (fun x => Qeq_bool (q1 x) 0) l.
  Definition ten39 : positive := Eval vm_compute in Z.to_pos (10 ^ 39).
  Definition near (N : list Z) (V : Z) (D : positive) (s : nat) (eps : Q) (Th : Z) (v : list qs) : bool :=
    rational v && (length v =? s)%nat && (let W := zweights N V Th in zmom_check W N (Zpos D) (Zpos ten39) Th s && qclose eps W D (map q0 v) s).
  Definition dec_check (x : solver_coeffs qs) (s : nat) (eps : Q) : bool :=
    let N := map (fun q => to_z (q0 q)) (sc_c x) in
    let V := Z.abs (zvan N) in let D := Z.to_pos (V * 420 * Zpos ten39) in
    (2 <=? s)%nat && dims_ok x s && distinct_check 2 (sc_c x) s && same_nodes ten39 N (sc_c x) && near N V D s eps (Zpos ten39) (sc_b x).
  Lemma dense_near x r s N V D Th v eps : sc_match 2 x r -> collocation_interpolate_coeffs (sc_c r) = Ok (sc_b_interp r) ->
    (2 <= s)%nat -> dims_ok x s = true -> distinct_check 2 (sc_c x) s = true -> same_nodes ten39 N (sc_c x) = true ->
    near N V D s eps Th v = true ->
    exists w, project_b (IZR Th / IZR (Zpos ten39)) s (sc_b_interp r) = Ok w /\ length w = s /\ forall i, (i < s)%nat -> Rabs (ventry w i - toR 2 (nth i v qs0)) <= Q2R eps.
  Proof.
    intros Hm HB H2 H3 H4 H5 H6. unfold near in H6. cbv zeta in H6. rewrite !andb_true_iff, Nat.eqb_eq in H6. destruct H6 as [[Hv Lv] [Hmom Hcl]].
    destruct (dims_facts x s H3) as (Lb & Lc & _). assert (L : length (sc_c r) = s) by (rewrite (m_c _ _ _ Hm), map_length; exact Lc).
    assert (LN : length N = s) by (unfold same_nodes in H5; rewrite andb_true_iff, Nat.eqb_eq in H5; destruct H5; congruence).
    set (W := zweights N V Th) in * . assert (LW : length W = s) by (unfold W, zweights; rewrite map_length, seq_length; exact LN).
    assert (Ec : sc_c r = over (Zpos ten39) N) by (rewrite (m_c _ _ _ Hm); apply same_nodes_ok; exact H5).
    exists (over (Zpos D) W). split; [|split; [unfold over; rewrite map_length; exact LW|]].
    - rewrite <- L at 1. apply (dense_unique (sc_c r) (IZR Th / IZR (Zpos ten39)) (over (Zpos D) W)); rewrite ?L; try assumption.
      + rewrite (m_c _ _ _ Hm). apply distinct_check_ok; [lia|assumption].
      + unfold over. rewrite map_length. exact LW.
      + intros k Hk. rewrite Ec. apply (zmom_check_ok W N (Zpos D) (Zpos ten39) Th s LW LN ltac:(lia) ltac:(lia) Hmom k Hk).
    - intros i Hi. rewrite <- (tab_v 2 v i), (rational_list 2 v Hv), ventry_Q2R. apply (qclose_ok _ _ _ _ _ Hcl i Hi).
  Qed.
  Lemma dec_near x r s eps : sc_match 2 x r -> collocation_interpolate_coeffs (sc_c r) = Ok (sc_b_interp r) -> dec_check x s eps = true ->
    length (sc_b r) = s /\ length (sc_c r) = s /\
    (exists w, project_b 1 s (sc_b_interp r) = Ok w /\ length w = s /\ forall j, (j < s)%nat -> Rabs (ventry w j - ventry (sc_b r) j) <= Q2R eps).
  Proof.
    intros Hm HB Hc. unfold dec_check in Hc. cbv zeta in Hc. rewrite !andb_true_iff, Nat.leb_le in Hc. destruct Hc as [[[[H1 H2] H3] H4] H5].
    destruct (dims_facts x s H2) as (Lb & Lc & _). rewrite (m_b _ _ _ Hm) at 1. rewrite (m_c _ _ _ Hm) at 1. rewrite !map_length.
    split; [exact Lb|]. split; [exact Lc|].
    destruct (dense_near x r s _ _ _ _ (sc_b x) eps Hm HB H1 H2 H3 H4 H5) as (w & Hw & Lw & Hn).
      replace (IZR (Zpos ten39) / IZR (Zpos ten39)) with 1 in Hw by (symmetry; apply Rinv_r; apply IZR_neq; discriminate).
      exists w. split; [exact Hw|]. split; [exact Lw|]. intros j Hj. rewrite (m_b _ _ _ Hm), tab_v. apply Hn, Hj.
  Qed.
  Lemma decimal_ends m sc : In m [RADAU_IIA_95; RADAU_IIA_137] -> irk_get_coefficients (T := R) m = Ok sc ->
    exists w, project_b 1 (length (sc_b sc)) (sc_b_interp sc) = Ok w /\ length w = length (sc_b sc) /\
    forall j, (j < length (sc_b sc))%nat -> Rabs (ventry w j - ventry (sc_b sc) j) <= 1 / 1000000000000000.
  Proof.
    assert (Ee : Q2R (1 # 1000000000000000) = 1 / 1000000000000000) by (unfold Q2R; simpl; lra).
    intros Hi Hg. simpl in Hi. destruct Hi as [<-|[<-|[]]].
    - destruct match_r95 as (r & Ht & Hm). rewrite (irk_get_det _ _ _ Hg Ht).
      destruct (dec_near q_r95 r 5 (1 # 1000000000000000) Hm (interp_of_table RADAU_IIA_95 r ltac:(simpl; tauto) Ht)) as (Lb & _ & H); [vm_compute; reflexivity|].
      rewrite Lb, <- Ee. exact H.
    - destruct match_r137 as (r & Ht & Hm). rewrite (irk_get_det _ _ _ Hg Ht).
      destruct (dec_near q_r137 r 7 (1 # 1000000000000000) Hm (interp_of_table RADAU_IIA_137 r ltac:(simpl; tauto) Ht)) as (Lb & _ & H); [vm_compute; reflexivity|].
      rewrite Lb, <- Ee. exact H.
  Qed.
End Decimal.
Lemma seven_stages (E : Env R) : exists sc, irk_get_coefficients (T := R) RADAU_IIA_137 = Ok sc /\ length (sc_b sc) = 7%nat.
Proof.
  destruct (irk_get_ok (T := R) RADAU_IIA_137) as (sc & Hg & _ & Hd). exists sc. split; [exact Hg|].
  unfold dims_ok in Hd. rewrite !andb_true_iff, !Nat.eqb_eq in Hd. destruct Hd as [[[[Hb _] _] _] _]. exact Hb.
Qed.
