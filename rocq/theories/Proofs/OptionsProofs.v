From Verif Require Import Model.Base Model.Options.
Local Open Scope N_scope.

Lemma land_pow2_testbit m k : negb (N.land m (2 ^ k) =? 0) = N.testbit m k.
Proof.
  destruct (N.testbit m k) eqn:E.
  - apply negb_true_iff, N.eqb_neq. intros H.
    assert (Hb : N.testbit (N.land m (2 ^ k)) k = true).
    { rewrite N.land_spec, E, N.pow2_bits_true; reflexivity. }
    rewrite H, N.bits_0 in Hb. discriminate.
  - apply negb_false_iff, N.eqb_eq. apply N.bits_inj. intros i. rewrite N.bits_0, N.land_spec.
    destruct (N.eq_dec k i) as [<-|Hn]; [rewrite E; reflexivity|].
    rewrite N.pow2_bits_false by exact Hn. apply andb_false_r.
Qed.

Lemma store_bit o : store_in_vectors o = N.testbit (output_mode o) 0.
Proof. unfold store_in_vectors. change (N.shiftl 1 (STORE_IN_VECTORS - 1)) with (2 ^ 0). apply land_pow2_testbit. Qed.
Lemma write_bit o : write_to_file o = N.testbit (output_mode o) 1.
Proof. unfold write_to_file. change (N.shiftl 1 (WRITE_TO_FILE - 1)) with (2 ^ 1). apply land_pow2_testbit. Qed.

Lemma oo_step o c :
  store_in_vectors (oo_do o c) = match c with EnableStore => true | DisableStore => false | SetStream _ => store_in_vectors o end /\
  write_to_file (oo_do o c) = match c with SetStream _ => true | _ => write_to_file o end /\
  output_stream (oo_do o c) = match c with SetStream s => Some s | _ => output_stream o end.
Proof.
  rewrite !store_bit, !write_bit.
  destruct c; simpl; rewrite ?N.lor_spec, ?N.land_spec;
    repeat match goal with |- context [N.testbit (Npos ?p) ?k] =>
             let b := eval vm_compute in (N.testbit (Npos p) k) in change (N.testbit (Npos p) k) with b end;
    rewrite ?orb_true_r, ?orb_false_r, ?andb_true_r, ?andb_false_r; auto.
Qed.

Lemma oo_history o h :
  store_in_vectors (fold_left oo_do h o) =
    fold_left (fun b c => match c with EnableStore => true | DisableStore => false | SetStream _ => b end) h (store_in_vectors o) /\
  write_to_file (fold_left oo_do h o) =
    fold_left (fun b c => match c with SetStream _ => true | _ => b end) h (write_to_file o) /\
  output_stream (fold_left oo_do h o) =
    fold_left (fun b c => match c with SetStream s => Some s | _ => b end) h (output_stream o).
Proof.
  revert o. induction h as [|c h IH]; intros o; simpl; [auto|].
  destruct (oo_step o c) as (H1 & H2 & H3). destruct (IH (oo_do o c)) as (I1 & I2 & I3).
  rewrite I1, I2, I3, H1, H2, H3. auto.
Qed.

Lemma write_has_stream h :
  let o := fold_left oo_do h output_options_default in
  write_to_file o = true <-> output_stream o <> None.
Proof.
  cbv zeta. destruct (oo_history output_options_default h) as (_ & -> & ->).
  assert (H : forall h b (s : option nat), (b = true <-> s <> None) ->
    (fold_left (fun b c => match c with SetStream _ => true | _ => b end) h b = true <->
     fold_left (fun b c => match c with SetStream s => Some s | _ => b end) h s <> None)).
  { clear h. induction h as [|c h IH]; intros b s Hbs; simpl; [exact Hbs|].
    destruct c; apply IH; [|exact Hbs|exact Hbs]. split; [discriminate|reflexivity]. }
  apply H. vm_compute. split; [discriminate|]. intros G; contradiction G; reflexivity.
Qed.

Lemma oo_interval o h : output_interval (fold_left oo_do h o) = output_interval o.
Proof. revert o. induction h as [|[] h IH]; intros o; simpl; [reflexivity|rewrite IH; reflexivity..]. Qed.
