From Coq Require Import Reals Lra.
From Verif Require Import Model.Base Model.Scalar Model.LinAlg Model.Timer Spec.SmallSpecs.
Local Open Scope R_scope.

Ltac rlit := unfold sZ in *; cbn [slit sadd ssub smul sdiv sopp sltb sleb seqb sabs ssqrt RScalar] in *;
             unfold Rlit in *; repeat match goal with |- context [IZR (Z.pow_pos 10 ?p)] =>
               let v := eval vm_compute in (Z.pow_pos 10 p) in change (Z.pow_pos 10 p) with v end.


Lemma elapsed_ms t0 t1 : get_elapsed t0 t1 = IZR (micros t1 - micros t0) / 1000 :> R.
Proof. unfold get_elapsed, micros. rlit. rewrite !minus_IZR, !plus_IZR, !mult_IZR. field. Qed.

Lemma elapsed_add t0 t1 t2 : get_elapsed t0 t1 + get_elapsed t1 t2 = get_elapsed t0 t2 :> R.
Proof. rewrite !elapsed_ms, !minus_IZR. field. Qed.

Lemma toc_spec out t0 t1 :
  toc out t0 t1 = (IZR (micros t1 - micros t0) / 1000,
                   if out then Some (IZR (micros t1 - micros t0) / 1000, IZR (micros t1 - micros t0) / 1000000) else None) :> R * option (R * R).
Proof. unfold toc. rewrite elapsed_ms. destruct out; [|reflexivity]. repeat f_equal. rlit. field. Qed.


Lemma breakdown_spec ts : (6 <= length ts)%nat -> total ts <> 0 ->
  let k := if Rlt_dec 1000 (total ts) then /10000 else 1 in
  print_timing_breakdown ts =
  Ok (if Rlt_dec 1000 (total ts) then true else false,
      (k * total ts, 100) :: map (fun i => (k * nth i ts 0, 100 * nth i ts 0 / total ts)) (seq 0 6)).
Proof.
  intros H6 Ht k. unfold print_timing_breakdown.
  replace (6 <=? length ts)%nat with true by (symmetry; apply Nat.leb_le; exact H6).
  change (fold_left sadd ts (slit 0 0)) with (total ts).
  set (tt := total ts) in * . unfold timing_line.
  assert (Hs : (tt >?. sZ 1000)%sc = if Rlt_dec 1000 tt then true else false).
  { reflexivity. }
  rewrite Hs. assert (Hk : k <> 0) by (subst k; destruct (Rlt_dec 1000 tt); lra).
  assert (Hk2 : (if if Rlt_dec 1000 tt then true else false then slit 1 (-4) else slit 10 (-1)) = k).
  { subst k; destruct (Rlt_dec 1000 tt); rlit; lra. }
  rewrite Hk2. clearbody k. clear Hs Hk2.
  f_equal. f_equal. f_equal.
  - f_equal; [rlit; ring|]. rlit. field. split; assumption.
  - apply map_ext. intros i. f_equal. rlit. field. split; assumption.
Qed.

Lemma breakdown_short (ts : list R) : (length ts < 6)%nat -> print_timing_breakdown ts = Err EUB.
Proof.
  intros H. unfold print_timing_breakdown.
  replace (6 <=? length ts)%nat with false by (symmetry; apply Nat.leb_gt; exact H). reflexivity.
Qed.
