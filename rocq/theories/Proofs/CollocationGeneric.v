(** collocation_interpolate_coeffs returns a square matrix in every arithmetic. *)
From Coq Require Import Reals.
From Verif Require Import Model.Base Model.Scalar Model.LinAlg Model.Collocation.
From Verif Require Import Spec.Sums Proofs.SumsProofs Proofs.CollocationProofs Proofs.CoeffsProofs.

Section Generic.
  Context {T : Type} `{Scalar T} `{Env T}.

  Lemma coll_coeff_ok (c : list T) i t : valid_term (length c) t -> exists x, coll_coeff c i t = Ok x.
  Proof.
    intros Hv. unfold coll_coeff.
    destruct (foldR_ok (fun j coeff => if (j =? -1)%Z then Ok coeff
                          else rbind (if (j <? 0)%Z then Err (EThrow ELogic) else vget c (Z.to_nat j))
                               (fun cj => Ok (coeff *. (-. cj))%sc)) (fun _ => True) t
                (slit 10 (-1) /. coll_d c i /. (slit 10 (-1) +. sZ (Z.of_nat (coll_order t))))%sc I) as (x & Hx & _).
    - intros z a Hz _. destruct (Z.eqb_spec z (-1)) as [->|Hn]; [eauto|].
      destruct (Hv z Hz) as [->|(j & Hj & ->)]; [contradiction|].
      replace (Z.of_nat j <? 0)%Z with false by (symmetry; apply Z.ltb_ge; lia). rewrite Nat2Z.id. unfold vget.
      destruct (nth_error c j) eqn:E; [cbn [rbind]; eauto|]. apply nth_error_None in E. lia.
    - eauto.
  Qed.

  Lemma coll_add_ok (c : list T) i t f :
    (i < length c)%nat -> valid_term (length c) t -> (coll_order t < length c)%nat ->
    exists f', coll_add c i t (mtab (length c) (length c) f) = Ok (mtab (length c) (length c) f').
  Proof.
    intros Hi Hv Ho. unfold coll_add. destruct (coll_coeff_ok c i t Hv) as [x ->]. cbn [rbind].
    set (k := (length c - coll_order t - 1)%nat).
    replace (Z.of_nat (length c) - Z.of_nat (coll_order t) - 1)%Z with (Z.of_nat k) by (unfold k; lia).
    assert (Hx : (k < length c)%nat) by (unfold k; lia).
    replace (0 <=? Z.of_nat k)%Z with true by (symmetry; apply Z.leb_le; lia).
    replace (Z.of_nat k <? Z.of_nat (length c))%Z with true by (symmetry; apply Z.ltb_lt; lia).
    replace (Z.of_nat k <? 0)%Z with false by (symmetry; apply Z.ltb_ge; lia).
    cbn [andb negb]. rewrite andb_false_r. rewrite Nat2Z.id, mget_mtab by assumption. cbn [rbind].
    rewrite mset_mtab by assumption. eauto.
  Qed.

  Lemma collocation_ok (c : list T) :
    exists f, collocation_interpolate_coeffs c = Ok (mtab (length c) (length c) f).
  Proof.
    unfold collocation_interpolate_coeffs. cbv zeta.
    destruct (foldR_ok (fun i b_interp => foldR (fun cf b => coll_add c i cf b) (coll_poly (length c) i) b_interp)
               (fun b => exists f, b = mtab (length c) (length c) f) (seq 0 (length c)) (mzeros (length c) (length c)))
      as (b & Hb & f & ->).
    - unfold mzeros. eauto.
    - intros i b Hi [f ->]. apply in_seq in Hi.
      apply (foldR_ok (fun cf b => coll_add c i cf b) (fun b => exists f, b = mtab (length c) (length c) f)); [eauto|].
      intros t b Ht [g ->].
      destruct (coll_poly_inv i (length c)) as [[_ E]|(H1 & H2 & H3 & _)]; [rewrite E in Ht; contradiction|].
      destruct (H3 t Ht) as [L Hz]. rewrite others_lt in L by lia.
      destruct (coll_add_ok c i t g) as [f' Hf']; [lia|exact Hz| |].
      + unfold coll_order. pose proof (count_occ_bound Z.eq_dec (-1)%Z t). lia.
      + eauto.
    - eauto.
  Qed.
End Generic.
