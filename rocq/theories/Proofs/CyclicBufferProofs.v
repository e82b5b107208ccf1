(** Lemmas about the cyclic buffer model. *)
From Verif Require Import Model.Base Model.CyclicBuffer.
From Coq Require Import ZifyBool ZifyNat.
Local Open Scope Z_scope.

Lemma list_set_length {A} (l : list A) i x : length (list_set l i x) = length l.
Proof. revert i; induction l as [|a l IH]; intros [|i]; simpl; auto. Qed.

Lemma nth_error_list_set_eq {A} (l : list A) i x :
  (i < length l)%nat -> nth_error (list_set l i x) i = Some x.
Proof. revert i; induction l as [|a l IH]; intros [|i] Hi; simpl in *; try lia; auto. apply IH; lia. Qed.

Lemma nth_error_list_set_neq {A} (l : list A) i j x :
  i <> j -> nth_error (list_set l i x) j = nth_error l j.
Proof. revert i j; induction l as [|a l IH]; intros [|i] [|j] Hij; simpl; auto; try lia. Qed.

Section CBP.
  Context {A : Type}.
  Implicit Types (b : cbuf A) (h : list A).

  (** [h] is the history, newest first. *)
  Definition inv (d : A) (p : Z) b h : Prop :=
    1 <= p /\
    period_ b = p /\ size_ b = Z.min (Z.of_nat (length h)) p /\
    Z.of_nat (length (storage_ b)) = 2 * p /\
    0 <= current_ b <= 2 * p - 2 /\
    (h = [] -> current_ b = 0 /\ nth_error (storage_ b) 0 = Some d) /\
    (h <> [] -> Z.min (Z.of_nat (length h)) p - 1 <= current_ b) /\
    (Z.of_nat (length h) <= p -> h <> [] -> current_ b = Z.of_nat (length h) - 1) /\
    (p <= Z.of_nat (length h) -> current_ b = p - 1 + Z.of_nat (length h) mod p) /\
    (forall i, 0 <= i < Z.min (Z.of_nat (length h)) p ->
       nth_error (storage_ b) (Z.to_nat (current_ b - i)) = nth_error h (Z.to_nat i) /\
       (p <= current_ b - i ->
        nth_error (storage_ b) (Z.to_nat (current_ b - i - p)) = nth_error h (Z.to_nat i))).

  Lemma inv_make d p : 1 <= p -> exists b, cb_make d p = Ok b /\ inv d p b [].
  Proof.
    intros Hp. unfold cb_make. destruct (Z.ltb_spec p 0); [lia|].
    eexists; split; [reflexivity|].
    unfold inv; cbn [period_ current_ size_ storage_ length]. rewrite repeat_length.
    repeat split; try lia.
    all: try (intros; congruence).
    destruct (Z.to_nat _) eqn:E; [lia|]. reflexivity.
  Qed.

  Lemma st_set_ok (s : list A) j x :
    0 <= j < Z.of_nat (length s) -> st_set s j x = Ok (list_set s (Z.to_nat j) x).
  Proof. intros Hj. unfold st_set. destruct ((0 <=? j) && (j <? Z.of_nat (length s))) eqn:E; [reflexivity|lia]. Qed.

  Lemma push_inv d p b h x : inv d p b h -> exists b', cb_push b x = Ok b' /\ inv d p b' (x :: h).
  Proof.
    intros (Hp & Hper & Hsz & Hlen & Hcur & He & Hne & Hsmall & Hmod & Hget).
    unfold cb_push. rewrite Hper.
    set (next := if size_ b =? 0 then 0 else current_ b + 1).
    assert (Hnext : next = 0 /\ h = [] \/ next = current_ b + 1 /\ h <> []).
    { unfold next. destruct (Z.eqb_spec (size_ b) 0) as [E|E].
      - left; split; [reflexivity|]. destruct h; [reflexivity|simpl in *; lia].
      - right; split; [reflexivity|]. destruct h; [simpl in *; lia|discriminate]. }
    clearbody next.
    assert (Hn : 0 <= next <= 2 * p - 1) by (destruct Hnext as [[-> _]|[-> _]]; lia).
    destruct (Z.geb_spec next p) as [Hge|Hlt].
    - (* both halves written; the history is non-empty *)
      destruct Hnext as [[Hn0 _]|[Hnx Hh]]; [lia|].
      rewrite (st_set_ok (storage_ b)) by lia. cbn [rbind].
      rewrite st_set_ok by (rewrite list_set_length; lia). cbn [rbind].
      eexists; split; [reflexivity|].
      assert (HLh : 1 <= Z.of_nat (length h)) by (destruct h; [congruence|simpl; lia]).
      assert (Hbig : p <= Z.of_nat (length h)).
      { destruct (Z_le_gt_dec p (Z.of_nat (length h))); [assumption|].
        rewrite Hsmall in Hnx by (assumption || lia). lia. }
      unfold inv; cbn [period_ current_ size_ storage_].
      rewrite !list_set_length.
      assert (HL : Z.of_nat (length (x :: h)) = Z.of_nat (length h) + 1) by (simpl length; lia).
      rewrite HL.
      set (c := if next =? 2 * p - 1 then p - 1 else next).
      assert (Hc : c = next /\ next < 2*p-1 \/ c = p - 1 /\ next = 2 * p - 1).
      { unfold c. destruct (Z.eqb_spec next (2*p-1)); lia. }
      clearbody c.
      split; [lia|]. split; [reflexivity|].
      split; [destruct (Z.ltb_spec (size_ b) p); lia|].
      split; [lia|]. split; [lia|].
      split; [discriminate|]. split; [intros _; lia|]. split; [intros ? _; lia|].
      split.
      { intros _. specialize (Hmod Hbig).
        pose proof (Z.mod_pos_bound (Z.of_nat (length h)) p ltac:(lia)) as Hmb.
        destruct Hc as [[-> Hc]|[-> Hc]].
        - rewrite <- (Z.add_mod_idemp_l (Z.of_nat (length h)) 1 p) by lia.
          rewrite (Z.mod_small (Z.of_nat (length h) mod p + 1)) by lia. lia.
        - rewrite <- (Z.add_mod_idemp_l (Z.of_nat (length h)) 1 p) by lia.
          replace (Z.of_nat (length h) mod p + 1) with p by lia. rewrite Z.mod_same by lia. lia. }
      intros i Hi.
      assert (Hold : forall k, 0 <= k < p - 1 ->
         nth_error (list_set (list_set (storage_ b) (Z.to_nat next) x) (Z.to_nat (next - p)) x)
                   (Z.to_nat (current_ b - k)) = nth_error h (Z.to_nat k)).
      { intros k Hk. destruct (Hget k ltac:(lia)) as [H1 _].
        rewrite !nth_error_list_set_neq by lia. exact H1. }
      assert (Hold2 : forall k, 0 <= k < p - 1 -> p <= current_ b - k ->
         nth_error (list_set (list_set (storage_ b) (Z.to_nat next) x) (Z.to_nat (next - p)) x)
                   (Z.to_nat (current_ b - k - p)) = nth_error h (Z.to_nat k)).
      { intros k Hk Hk2. destruct (Hget k ltac:(lia)) as [_ H2]. specialize (H2 Hk2).
        rewrite !nth_error_list_set_neq by lia. exact H2. }
      destruct (Z.eq_dec i 0) as [->|Hi0].
      + replace (Z.to_nat 0) with 0%nat by reflexivity. cbn [nth_error].
        destruct Hc as [[-> Hc]|[-> Hc]].
        * split; intros.
          -- replace (next - 0) with next by lia.
             rewrite nth_error_list_set_neq by lia. apply nth_error_list_set_eq; lia.
          -- replace (next - 0 - p) with (next - p) by lia.
             apply nth_error_list_set_eq. rewrite list_set_length. lia.
        * split; intros; [|lia].
          replace (p - 1 - 0) with (next - p) by lia.
          apply nth_error_list_set_eq. rewrite list_set_length. lia.
      + replace (Z.to_nat i) with (S (Z.to_nat (i - 1))) by lia. cbn [nth_error].
        destruct Hc as [[-> Hc]|[-> Hc]].
        * split; intros.
          -- replace (next - i) with (current_ b - (i - 1)) by lia. apply Hold; lia.
          -- replace (next - i - p) with (current_ b - (i - 1) - p) by lia. apply Hold2; lia.
        * split; intros; [|lia].
          replace (p - 1 - i) with (current_ b - (i - 1) - p) by lia. apply Hold2; lia.
    - (* first lap *)
      rewrite (st_set_ok (storage_ b)) by lia. cbn [rbind].
      eexists; split; [reflexivity|].
      unfold inv; cbn [period_ current_ size_ storage_].
      rewrite !list_set_length.
      assert (HL : Z.of_nat (length (x :: h)) = Z.of_nat (length h) + 1) by (simpl length; lia).
      rewrite HL.
      destruct (Z.eqb_spec next (2 * p - 1)) as [E|E]; [lia|].
      assert (HLh : h = [] -> length h = 0%nat) by (intros ->; reflexivity).
      split; [lia|]. split; [reflexivity|].
      split; [destruct (Z.ltb_spec (size_ b) p); lia|].
      split; [lia|]. split; [lia|].
      split; [discriminate|].
      split; [intros _; destruct Hnext as [[Hn0 Hh]|[Hnx Hh]];
              [specialize (HLh Hh); lia|specialize (Hne Hh); lia]|].
      split; [intros HH _; destruct Hnext as [[Hn0 Hh]|[Hnx Hh]];
              [specialize (HLh Hh); lia|rewrite Hsmall in Hnx by (assumption || lia); lia]|].
      split.
      { intros HH. assert (Z.of_nat (length h) + 1 = p) as HHp.
        { destruct Hnext as [[Hn0 Hh]|[Hnx Hh]]; [specialize (HLh Hh); lia|].
          destruct (Z_le_gt_dec (Z.of_nat (length h)) p) as [Hl|Hl];
            [specialize (Hsmall Hl Hh); lia|].
          pose proof (Z.mod_pos_bound (Z.of_nat (length h)) p ltac:(lia)). specialize (Hmod ltac:(lia)). lia. }
        rewrite HHp, Z.mod_same by lia.
        destruct Hnext as [[Hn0 Hh]|[Hnx Hh]]; [specialize (HLh Hh); lia|].
        specialize (Hsmall ltac:(lia) Hh). lia. }
      intros i Hi. split; [|lia].
      destruct (Z.eq_dec i 0) as [->|Hi0].
      + replace (next - 0) with next by lia. apply nth_error_list_set_eq; lia.
      + assert (Hh : h <> []) by (intros E'; specialize (HLh E'); lia).
        destruct Hnext as [[_ Hh']|[Hnx _]]; [congruence|].
        replace (Z.to_nat i) with (S (Z.to_nat (i - 1))) by lia. cbn [nth_error].
        destruct (Hget (i - 1) ltac:(lia)) as [H1 _].
        rewrite nth_error_list_set_neq by lia.
        replace (next - i) with (current_ b - (i - 1)) by lia. exact H1.
  Qed.

  Lemma pushes_inv d p xs b h :
    inv d p b h -> exists b', cb_pushes b xs = Ok b' /\ inv d p b' (rev xs ++ h).
  Proof.
    revert b h; induction xs as [|x xs IH]; intros b h Hi; simpl.
    - eauto.
    - destruct (push_inv d p b h x Hi) as (b1 & E1 & Hi1). rewrite E1. simpl.
      destruct (IH b1 (x :: h) Hi1) as (b2 & E2 & Hi2).
      exists b2; split; [exact E2|]. rewrite <- app_assoc. exact Hi2.
  Qed.

  Lemma st_get_some (s : list A) j x :
    0 <= j < Z.of_nat (length s) -> nth_error s (Z.to_nat j) = Some x -> st_get s j = Ok x.
  Proof.
    intros Hj Hx. unfold st_get.
    destruct ((0 <=? j) && (j <? Z.of_nat (length s))) eqn:E; [rewrite Hx; reflexivity|lia].
  Qed.

  Lemma inv_get d p b h nd i :
    inv d p b h -> 0 <= i < size_ b ->
    exists x, nth_error h (Z.to_nat i) = Some x /\ cb_get nd b i = Ok x.
  Proof.
    intros (Hp & Hper & Hsz & Hlen & Hcur & He & Hne & Hsmall & Hmod & Hget) Hi.
    destruct (Hget i ltac:(lia)) as [H1 _].
    destruct (nth_error h (Z.to_nat i)) as [x|] eqn:Ex.
    - exists x; split; [reflexivity|]. unfold cb_get. rewrite Hper.
      assert (h <> []) by (intros ->; simpl in Hsz; lia).
      specialize (Hne H).
      replace (i <? p) with true by lia. replace (i <=? current_ b) with true by lia.
      rewrite andb_false_r. apply st_get_some; [lia|exact H1].
    - apply nth_error_None in Ex. lia.
  Qed.

  Lemma inv_get_oob d p b h i :
    inv d p b h -> size_ b <= i -> (h <> [] \/ 0 < i) -> cb_get false b i = Err EAbort.
  Proof.
    intros (Hp & Hper & Hsz & Hlen & Hcur & He & Hne & Hsmall & Hmod & Hget) Hi Hor.
    unfold cb_get. rewrite Hper. simpl.
    destruct (Z.ltb_spec i p) as [Hlt|Hge]; [simpl|reflexivity].
    destruct (Z.leb_spec i (current_ b)) as [Hle|Hgt]; [simpl|reflexivity].
    exfalso. destruct h as [|a h0] eqn:Eh.
    - destruct He as [He _]; [reflexivity|]. destruct Hor as [Hor|Hor]; [congruence|lia].
    - assert (Hq : (a :: h0) <> []) by discriminate.
      destruct (Z_le_gt_dec (Z.of_nat (length (a :: h0))) p) as [Hl|Hl].
      + specialize (Hsmall Hl Hq). lia.
      + lia.
  Qed.

  Lemma inv_get_empty d p b : inv d p b [] -> cb_get false b 0 = Ok d.
  Proof.
    intros (Hp & Hper & Hsz & Hlen & Hcur & He & _).
    destruct (He eq_refl) as [Hc Hd]. unfold cb_get. rewrite Hper, Hc. simpl.
    replace (0 <? p) with true by lia. simpl. apply st_get_some; [lia|exact Hd].
  Qed.

  (** The position of the newest element, as a function of the number of pushes. *)
  Lemma inv_current_pushes d p (xs : list A) b0 b :
    1 <= p -> cb_make d p = Ok b0 -> cb_pushes b0 xs = Ok b -> inv d p b (rev xs).
  Proof.
    intros Hp H0 Hb. destruct (inv_make d p Hp) as (b0' & E0 & I0).
    rewrite E0 in H0. injection H0 as <-.
    destruct (pushes_inv d p xs b0' [] I0) as (b' & E & I).
    rewrite E in Hb. injection Hb as <-. rewrite app_nil_r in I. exact I.
  Qed.

  Lemma window_lemma d p (xs : list A) :
    1 <= p ->
    exists b0 b, cb_make d p = Ok b0 /\ cb_pushes b0 xs = Ok b /\
      cb_size b = Z.min (Z.of_nat (length xs)) p /\
      forall nd i, 0 <= i < cb_size b ->
        exists x, nth_error (rev xs) (Z.to_nat i) = Some x /\ cb_get nd b i = Ok x.
  Proof.
    intros Hp. destruct (inv_make d p Hp) as (b0 & E0 & I0).
    destruct (pushes_inv d p xs b0 [] I0) as (b & E & I). rewrite app_nil_r in I.
    exists b0, b. repeat split; auto.
    - destruct I as (_ & _ & Hsz & _). rewrite rev_length in Hsz. exact Hsz.
    - intros nd i Hi. eapply inv_get; eauto.
  Qed.

  Lemma resize_push (b : cbuf A) n x : cb_push (cb_resize b n) x = Err EUB.
  Proof.
    unfold cb_push, cb_resize, st_set; simpl.
    assert (E : forall j, ((0 <=? j) && (j <? 0)) = false) by (intros; lia).
    rewrite !E. destruct (_ >=? n); reflexivity.
  Qed.

  (** [end()] moves the newest position back to [p] when it was beyond. *)
  Lemma end_get d p (xs : list A) b0 b nd i :
    1 <= p -> cb_make d p = Ok b0 -> cb_pushes b0 xs = Ok b ->
    let m := Z.of_nat (length xs) mod p in
    p <= Z.of_nat (length xs) -> 1 <= m -> 0 <= i -> i + (m - 1) < p ->
    exists x, nth_error (rev xs) (Z.to_nat (i + (m - 1))) = Some x /\ cb_get nd (cb_end b) i = Ok x.
  Proof.
    intros Hp H0 Hb m Hn Hm Hi Hlt.
    pose proof (inv_current_pushes d p xs b0 b Hp H0 Hb) as I.
    destruct I as (_ & Hper & Hsz & Hlen & Hcur & He & Hne & Hsmall & Hmod & Hget).
    rewrite rev_length in * . specialize (Hmod Hn). fold m in Hmod.
    destruct (Hget (i + (m - 1)) ltac:(lia)) as [H1 _].
    destruct (nth_error (rev xs) (Z.to_nat (i + (m - 1)))) as [x|] eqn:Ex.
    2:{ apply nth_error_None in Ex. rewrite rev_length in Ex. lia. }
    exists x; split; [reflexivity|].
    unfold cb_end. rewrite Hper.
    replace (p <=? current_ b) with true by lia.
    unfold cb_get; cbn [period_ current_ storage_].
    replace (i <? p) with true by lia. replace (i <=? p) with true by lia.
    rewrite andb_false_r. apply st_get_some; [lia|].
    replace (p - i) with (current_ b - (i + (m - 1))) by lia. exact H1.
  Qed.

  Lemma end_harmless d p (xs : list A) b0 b :
    1 <= p -> cb_make d p = Ok b0 -> cb_pushes b0 xs = Ok b ->
    (Z.of_nat (length xs) < p \/ Z.of_nat (length xs) mod p <= 1) -> cb_end b = b.
  Proof.
    intros Hp H0 Hb Hor.
    pose proof (inv_current_pushes d p xs b0 b Hp H0 Hb) as I.
    destruct I as (_ & Hper & Hsz & Hlen & Hcur & He & Hne & Hsmall & Hmod & Hget).
    rewrite rev_length in * . unfold cb_end. rewrite Hper.
    destruct (Z.leb_spec p (current_ b)) as [Hle|Hgt]; [|reflexivity].
    destruct (Z_le_gt_dec p (Z.of_nat (length xs))) as [Hl|Hl].
    - specialize (Hmod Hl). assert (E : current_ b = p).
      { destruct Hor as [?|?]; lia. }
      destruct b as [pp cc ss st]; cbn [period_ current_ size_ storage_] in * . f_equal; congruence.
    - exfalso. destruct xs as [|x xs'].
      + destruct (He eq_refl) as [Hc _]. lia.
      + assert (Hq : rev (x :: xs') <> []).
        { intros E. apply (f_equal (@length A)) in E. rewrite rev_length in E. simpl in E. lia. }
        specialize (Hsmall ltac:(lia) Hq). lia.
  Qed.

  Lemma period0_push (b : cbuf A) d x : cb_make d 0 = Ok b \/ b = cb_default -> cb_push b x = Err EUB.
  Proof. intros [H| ->]; [injection H as <-|]; reflexivity. Qed.

  Lemma index_beyond_size_aborts d p (xs : list A) b0 b i :
    1 <= p -> cb_make d p = Ok b0 -> cb_pushes b0 xs = Ok b ->
    cb_size b <= i -> (xs <> [] \/ 0 < i) -> cb_get false b i = Err EAbort.
  Proof.
    intros Hp H0 Hb Hi Hor. eapply inv_get_oob; [eapply inv_current_pushes; eassumption|exact Hi|].
    destruct Hor as [Hx|Hx]; [left|right; exact Hx].
    intros E. apply Hx. rewrite <- (rev_involutive xs), E. reflexivity.
  Qed.

  Lemma empty_index0 (d : A) p b0 :
    1 <= p -> cb_make d p = Ok b0 -> cb_empty b0 = true /\ cb_get false b0 0 = Ok d.
  Proof.
    intros Hp H0. destruct (inv_make d p Hp) as (b & E & I). rewrite E in H0. injection H0 as <-.
    split; [|eapply inv_get_empty; exact I].
    destruct I as (_ & _ & Hsz & _). unfold cb_empty. simpl in Hsz. lia.
  Qed.

  Lemma iterators_undefined (b : cbuf A) :
    iter_deref b (cb_begin b) = Err EUB /\ iter_eq (cb_begin b) (snd (cb_end_iter b)) = Err EUB.
  Proof. split; reflexivity. Qed.
End CBP.

Lemma end_is_harmless_refuted :
  exists (b0 b : cbuf nat) (xs : list nat),
    cb_make 0%nat 3 = Ok b0 /\ cb_pushes b0 xs = Ok b /\ cb_get false b 0 <> cb_get false (cb_end b) 0.
Proof.
  do 2 eexists. exists [10; 20; 30; 40; 50]%nat.
  split; [vm_compute; reflexivity|]. split; [vm_compute; reflexivity|]. vm_compute. discriminate.
Qed.
