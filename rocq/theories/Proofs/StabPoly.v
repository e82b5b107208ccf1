(** The stability polynomials of the explicit methods on the negative real axis.  The certificates (Bernstein coefficients on a
    bounded interval, Taylor coefficients beyond a point) are all non-negative. *)
From Coq Require Import Reals Lra Lia.
From Verif Require Import Model.Base Model.Scalar Model.LinAlg Model.Enums Model.Coeffs Model.ErkCoeffs.
From Verif Require Import Spec.Sums Spec.Trees Spec.Methods Spec.RkSpec Spec.StabilitySpec Spec.Observe.
From Verif Require Import Proofs.SumsProofs Proofs.TablesFinal Proofs.ErkCoeffsProofs Proofs.ErkProofs Proofs.RkExact.
Local Open Scope R_scope.

Lemma rk4_le1 d : (0) <= d <= (557 / 200) -> 0 <= (0) + (1) * d ^ 1 + (-1 / 2) * d ^ 2 + (1 / 6) * d ^ 3 + (-1 / 24) * d ^ 4.
Proof.
  intros [H1 H2]. replace ((0) + (1) * d ^ 1 + (-1 / 2) * d ^ 2 + (1 / 6) * d ^ 3 + (-1 / 24) * d ^ 4) with (let u := d - (0) in let v := (557 / 200) - d in (0) * (u ^ 0 * v ^ 4) + (8000000 / 172808693) * (u ^ 1 * v ^ 3) + (12860000 / 172808693) * (u ^ 2 * v ^ 2) + (36184900 / 518426079) * (u ^ 3 * v ^ 1) + (10169 / 1382469544) * (u ^ 4 * v ^ 0)) by (cbv zeta; field).
  cbv zeta. assert (Hu : 0 <= d - (0)) by lra. assert (Hv : 0 <= (557 / 200) - d) by lra.
  repeat apply Rplus_le_le_0_compat; (apply Rmult_le_pos; [lra|apply Rmult_le_pos; apply pow_le; assumption]).
Qed.
Lemma rk4_gem1 d : (0) <= d <= (557 / 200) -> 0 <= (2) + (-1) * d ^ 1 + (1 / 2) * d ^ 2 + (-1 / 6) * d ^ 3 + (1 / 24) * d ^ 4.
Proof.
  intros [H1 H2]. replace ((2) + (-1) * d ^ 1 + (1 / 2) * d ^ 2 + (-1 / 6) * d ^ 3 + (1 / 24) * d ^ 4) with (let u := d - (0) in let v := (557 / 200) - d in (3200000000 / 96254442001) * (u ^ 0 * v ^ 4) + (8344000000 / 96254442001) * (u ^ 1 * v ^ 3) + (12036980000 / 96254442001) * (u ^ 2 * v ^ 2) + (18245010700 / 288763326003) * (u ^ 3 * v ^ 1) + (25594335867 / 770035536008) * (u ^ 4 * v ^ 0)) by (cbv zeta; field).
  cbv zeta. assert (Hu : 0 <= d - (0)) by lra. assert (Hv : 0 <= (557 / 200) - d) by lra.
  repeat apply Rplus_le_le_0_compat; (apply Rmult_le_pos; [lra|apply Rmult_le_pos; apply pow_le; assumption]).
Qed.
Lemma rk4_beyond d : (1393 / 500) <= d -> 0 < (0) + (-1) * d ^ 1 + (1 / 2) * d ^ 2 + (-1 / 6) * d ^ 3 + (1 / 24) * d ^ 4.
Proof.
  intros H1. replace ((0) + (-1) * d ^ 1 + (1 / 2) * d ^ 2 + (-1 / 6) * d ^ 3 + (1 / 24) * d ^ 4) with (let u := d - (1393 / 500) in (1598407601 / 1500000000000) + (1131871957 / 750000000) * u ^ 1 + (1047449 / 1000000) * u ^ 2 + (893 / 3000) * u ^ 3 + (1 / 24) * u ^ 4) by (cbv zeta; field).
  cbv zeta. assert (Hu : 0 <= d - (1393 / 500)) by lra.
  repeat (apply Rplus_lt_le_0_compat; [|apply Rmult_le_pos; [lra|apply pow_le; assumption]]). lra.
Qed.
Lemma bs_le1 d : (0) <= d <= (314 / 125) -> 0 <= (0) + (1) * d ^ 1 + (-1 / 2) * d ^ 2 + (1 / 6) * d ^ 3.
Proof.
  intros [H1 H2]. replace ((0) + (1) * d ^ 1 + (-1 / 2) * d ^ 2 + (1 / 6) * d ^ 3) with (let u := d - (0) in let v := (314 / 125) - d in (0) * (u ^ 0 * v ^ 3) + (15625 / 98596) * (u ^ 1 * v ^ 2) + (11625 / 98596) * (u ^ 2 * v ^ 1) + (18649 / 147894) * (u ^ 3 * v ^ 0)) by (cbv zeta; field).
  cbv zeta. assert (Hu : 0 <= d - (0)) by lra. assert (Hv : 0 <= (314 / 125) - d) by lra.
  repeat apply Rplus_le_le_0_compat; (apply Rmult_le_pos; [lra|apply Rmult_le_pos; apply pow_le; assumption]).
Qed.
Lemma bs_gem1 d : (0) <= d <= (314 / 125) -> 0 <= (2) + (-1) * d ^ 1 + (1 / 2) * d ^ 2 + (-1 / 6) * d ^ 3.
Proof.
  intros [H1 H2]. replace ((2) + (-1) * d ^ 1 + (1 / 2) * d ^ 2 + (-1 / 6) * d ^ 3) with (let u := d - (0) in let v := (314 / 125) - d in (1953125 / 15479572) * (u ^ 0 * v ^ 3) + (1703125 / 7739786) * (u ^ 1 * v ^ 2) + (2017125 / 7739786) * (u ^ 2 * v ^ 1) + (3589 / 46438716) * (u ^ 3 * v ^ 0)) by (cbv zeta; field).
  cbv zeta. assert (Hu : 0 <= d - (0)) by lra. assert (Hv : 0 <= (314 / 125) - d) by lra.
  repeat apply Rplus_le_le_0_compat; (apply Rmult_le_pos; [lra|apply Rmult_le_pos; apply pow_le; assumption]).
Qed.
Lemma bs_beyond d : (2513 / 1000) <= d -> 0 < (-2) + (1) * d ^ 1 + (-1 / 2) * d ^ 2 + (1 / 6) * d ^ 3.
Proof.
  intros H1. replace ((-2) + (1) * d ^ 1 + (-1 / 2) * d ^ 2 + (1 / 6) * d ^ 3) with (let u := d - (2513 / 1000) in (2512697 / 6000000000) + (3289169 / 2000000) * u ^ 1 + (1513 / 2000) * u ^ 2 + (1 / 6) * u ^ 3) by (cbv zeta; field).
  cbv zeta. assert (Hu : 0 <= d - (2513 / 1000)) by lra.
  repeat (apply Rplus_lt_le_0_compat; [|apply Rmult_le_pos; [lra|apply pow_le; assumption]]). lra.
Qed.
Lemma ck_le1 d : (0) <= d <= (1867 / 500) -> 0 <= (0) + (1) * d ^ 1 + (-1 / 2) * d ^ 2 + (1 / 6) * d ^ 3 + (-1 / 24) * d ^ 4 + (1 / 120) * d ^ 5 + (-1 / 800) * d ^ 6.
Proof.
  intros [H1 H2]. replace ((0) + (1) * d ^ 1 + (-1 / 2) * d ^ 2 + (1 / 6) * d ^ 3 + (-1 / 24) * d ^ 4 + (1 / 120) * d ^ 5 + (-1 / 800) * d ^ 6) with (let u := d - (0) in let v := (1867 / 500) - d in (0) * (u ^ 0 * v ^ 6) + (31250000000000 / 22684101911414107) * (u ^ 1 * v ^ 5) + (97906250000000 / 22684101911414107) * (u ^ 2 * v ^ 4) + (455230562500000 / 68052305734242321) * (u ^ 3 * v ^ 3) + (337511019906250 / 68052305734242321) * (u ^ 4 * v ^ 2) + (334661399743025 / 136104611468484642) * (u ^ 5 * v ^ 1) + (12888237967679 / 54441844587393856800) * (u ^ 6 * v ^ 0)) by (cbv zeta; field).
  cbv zeta. assert (Hu : 0 <= d - (0)) by lra. assert (Hv : 0 <= (1867 / 500) - d) by lra.
  repeat apply Rplus_le_le_0_compat; (apply Rmult_le_pos; [lra|apply Rmult_le_pos; apply pow_le; assumption]).
Qed.
Lemma ck_gem1 d : (0) <= d <= (1867 / 500) -> 0 <= (2) + (-1) * d ^ 1 + (1 / 2) * d ^ 2 + (-1 / 6) * d ^ 3 + (1 / 24) * d ^ 4 + (-1 / 120) * d ^ 5 + (1 / 800) * d ^ 6.
Proof.
  intros [H1 H2]. replace ((2) + (-1) * d ^ 1 + (1 / 2) * d ^ 2 + (-1 / 6) * d ^ 3 + (1 / 24) * d ^ 4 + (-1 / 120) * d ^ 5 + (1 / 800) * d ^ 6) with (let u := d - (0) in let v := (1867 / 500) - d in (31250000000000000 / 42351218268610137769) * (u ^ 0 * v ^ 6) + (129156250000000000 / 42351218268610137769) * (u ^ 1 * v ^ 5) + (285959031250000000 / 42351218268610137769) * (u ^ 2 * v ^ 4) + (1025084539812500000 / 127053654805830413307) * (u ^ 3 * v ^ 3) + (776116925835031250 / 127053654805830413307) * (u ^ 4 * v ^ 2) + (500187166679772325 / 254107309611660826614) * (u ^ 5 * v ^ 1) + (74975937659714343307 / 101642923844664330645600) * (u ^ 6 * v ^ 0)) by (cbv zeta; field).
  cbv zeta. assert (Hu : 0 <= d - (0)) by lra. assert (Hv : 0 <= (1867 / 500) - d) by lra.
  repeat apply Rplus_le_le_0_compat; (apply Rmult_le_pos; [lra|apply Rmult_le_pos; apply pow_le; assumption]).
Qed.
Lemma ck_beyond d : (747 / 200) <= d -> 0 < (0) + (-1) * d ^ 1 + (1 / 2) * d ^ 2 + (-1 / 6) * d ^ 3 + (1 / 24) * d ^ 4 + (-1 / 120) * d ^ 5 + (1 / 800) * d ^ 6.
Proof.
  intros H1. replace ((0) + (-1) * d ^ 1 + (1 / 2) * d ^ 2 + (-1 / 6) * d ^ 3 + (1 / 24) * d ^ 4 + (-1 / 120) * d ^ 5 + (1 / 800) * d ^ 6) with (let u := d - (747 / 200) in (58551966918729 / 51200000000000000) + (228695280515521 / 128000000000000) * u ^ 1 + (365302604243 / 256000000000) * u ^ 2 + (572080169 / 960000000) * u ^ 3 + (2834081 / 19200000) * u ^ 4 + (4723 / 240000) * u ^ 5 + (1 / 800) * u ^ 6) by (cbv zeta; field).
  cbv zeta. assert (Hu : 0 <= d - (747 / 200)) by lra.
  repeat (apply Rplus_lt_le_0_compat; [|apply Rmult_le_pos; [lra|apply pow_le; assumption]]). lra.
Qed.
Lemma dp_le1 d : (0) <= d <= (1653 / 500) -> 0 <= (0) + (1) * d ^ 1 + (-1 / 2) * d ^ 2 + (1 / 6) * d ^ 3 + (-1 / 24) * d ^ 4 + (1 / 120) * d ^ 5 + (-1 / 600) * d ^ 6.
Proof.
  intros [H1 H2]. replace ((0) + (1) * d ^ 1 + (-1 / 2) * d ^ 2 + (1 / 6) * d ^ 3 + (-1 / 24) * d ^ 4 + (1 / 120) * d ^ 5 + (-1 / 600) * d ^ 6) with (let u := d - (0) in let v := (1653 / 500) - d in (0) * (u ^ 0 * v ^ 6) + (31250000000000 / 12341395433243493) * (u ^ 1 * v ^ 5) + (104593750000000 / 12341395433243493) * (u ^ 2 * v ^ 4) + (162800187500000 / 12341395433243493) * (u ^ 3 * v ^ 3) + (126289395031250 / 12341395433243493) * (u ^ 4 * v ^ 2) + (114823612985675 / 24682790866486986) * (u ^ 5 * v ^ 1) + (1971314569669 / 2468279086648698600) * (u ^ 6 * v ^ 0)) by (cbv zeta; field).
  cbv zeta. assert (Hu : 0 <= d - (0)) by lra. assert (Hv : 0 <= (1653 / 500) - d) by lra.
  repeat apply Rplus_le_le_0_compat; (apply Rmult_le_pos; [lra|apply Rmult_le_pos; apply pow_le; assumption]).
Qed.
Lemma dp_gem1 d : (0) <= d <= (1653 / 500) -> 0 <= (2) + (-1) * d ^ 1 + (1 / 2) * d ^ 2 + (-1 / 6) * d ^ 3 + (1 / 24) * d ^ 4 + (-1 / 120) * d ^ 5 + (1 / 600) * d ^ 6.
Proof.
  intros [H1 H2]. replace ((2) + (-1) * d ^ 1 + (1 / 2) * d ^ 2 + (-1 / 6) * d ^ 3 + (1 / 24) * d ^ 4 + (-1 / 120) * d ^ 5 + (1 / 600) * d ^ 6) with (let u := d - (0) in let v := (1653 / 500) - d in (31250000000000000 / 20400326651151493929) * (u ^ 0 * v ^ 6) + (5031250000000000 / 755567653746351627) * (u ^ 1 * v ^ 5) + (98618843750000000 / 6800108883717164643) * (u ^ 2 * v ^ 4) + (355891290062500000 / 20400326651151493929) * (u ^ 3 * v ^ 3) + (28888181112593750 / 2266702961239054881) * (u ^ 4 * v ^ 2) + (61732189244893075 / 13600217767434329286) * (u ^ 5 * v ^ 1) + (6246741417016337143 / 4080065330230298785800) * (u ^ 6 * v ^ 0)) by (cbv zeta; field).
  cbv zeta. assert (Hu : 0 <= d - (0)) by lra. assert (Hv : 0 <= (1653 / 500) - d) by lra.
  repeat apply Rplus_le_le_0_compat; (apply Rmult_le_pos; [lra|apply Rmult_le_pos; apply pow_le; assumption]).
Qed.
Lemma dp_beyond d : (3307 / 1000) <= d -> 0 < (0) + (-1) * d ^ 1 + (1 / 2) * d ^ 2 + (-1 / 6) * d ^ 3 + (1 / 24) * d ^ 4 + (-1 / 120) * d ^ 5 + (1 / 600) * d ^ 6.
Proof.
  intros H1. replace ((0) + (-1) * d ^ 1 + (1 / 2) * d ^ 2 + (-1 / 6) * d ^ 3 + (1 / 24) * d ^ 4 + (-1 / 120) * d ^ 5 + (1 / 600) * d ^ 6) with (let u := d - (3307 / 1000) in (476456512214711249 / 600000000000000000000) + (183839681613995807 / 100000000000000000) * u ^ 1 + (186810342140003 / 120000000000000) * u ^ 2 + (6786850981 / 10000000000) * u ^ 3 + (7091249 / 40000000) * u ^ 4 + (7421 / 300000) * u ^ 5 + (1 / 600) * u ^ 6) by (cbv zeta; field).
  cbv zeta. assert (Hu : 0 <= d - (3307 / 1000)) by lra.
  repeat (apply Rplus_lt_le_0_compat; [|apply Rmult_le_pos; [lra|apply pow_le; assumption]]). lra.
Qed.
Lemma fb_le1 d : (0) <= d <= (3677 / 1000) -> 0 <= (0) + (1) * d ^ 1 + (-1 / 2) * d ^ 2 + (1 / 6) * d ^ 3 + (-1 / 24) * d ^ 4 + (1 / 120) * d ^ 5 + (-1 / 2080) * d ^ 6.
Proof.
  intros [H1 H2]. replace ((0) + (1) * d ^ 1 + (-1 / 2) * d ^ 2 + (1 / 6) * d ^ 3 + (-1 / 24) * d ^ 4 + (1 / 120) * d ^ 5 + (-1 / 2080) * d ^ 6) with (let u := d - (0) in let v := (3677 / 1000) - d in (0) * (u ^ 0 * v ^ 6) + (1000000000000000 / 672153012378322157) * (u ^ 1 * v ^ 5) + (3161500000000000 / 672153012378322157) * (u ^ 2 * v ^ 4) + (14698164500000000 / 2016459037134966471) * (u ^ 3 * v ^ 3) + (10973212283375000 / 2016459037134966471) * (u ^ 4 * v ^ 2) + (5359913473456025 / 2016459037134966471) * (u ^ 5 * v ^ 1) + (3392301598233565529 / 4194234797240730259680) * (u ^ 6 * v ^ 0)) by (cbv zeta; field).
  cbv zeta. assert (Hu : 0 <= d - (0)) by lra. assert (Hv : 0 <= (3677 / 1000) - d) by lra.
  repeat apply Rplus_le_le_0_compat; (apply Rmult_le_pos; [lra|apply Rmult_le_pos; apply pow_le; assumption]).
Qed.
Lemma fb_gem1 d : (0) <= d <= (3677 / 1000) -> 0 <= (2) + (-1) * d ^ 1 + (1 / 2) * d ^ 2 + (-1 / 6) * d ^ 3 + (1 / 24) * d ^ 4 + (-1 / 120) * d ^ 5 + (1 / 2080) * d ^ 6.
Proof.
  intros [H1 H2]. replace ((2) + (-1) * d ^ 1 + (1 / 2) * d ^ 2 + (-1 / 6) * d ^ 3 + (1 / 24) * d ^ 4 + (-1 / 120) * d ^ 5 + (1 / 2080) * d ^ 6) with (let u := d - (0) in let v := (3677 / 1000) - d in (2000000000000000000 / 2471506626515090571289) * (u ^ 0 * v ^ 6) + (8323000000000000000 / 2471506626515090571289) * (u ^ 1 * v ^ 5) + (18375164500000000000 / 2471506626515090571289) * (u ^ 2 * v ^ 4) + (65954849133500000000 / 7414519879545271713867) * (u ^ 3 * v ^ 3) + (49651498434030125000 / 7414519879545271713867) * (u ^ 4 * v ^ 2) + (16291598158102196075 / 7414519879545271713867) * (u ^ 5 * v ^ 1) + (6507023295179549867 / 15422201349454165164843360) * (u ^ 6 * v ^ 0)) by (cbv zeta; field).
  cbv zeta. assert (Hu : 0 <= d - (0)) by lra. assert (Hv : 0 <= (3677 / 1000) - d) by lra.
  repeat apply Rplus_le_le_0_compat; (apply Rmult_le_pos; [lra|apply Rmult_le_pos; apply pow_le; assumption]).
Qed.
Lemma fb_middle d : (1839 / 500) <= d <= (12) -> 0 <= (-20001 / 10000) + (1) * d ^ 1 + (-1 / 2) * d ^ 2 + (1 / 6) * d ^ 3 + (-1 / 24) * d ^ 4 + (1 / 120) * d ^ 5 + (-1 / 2080) * d ^ 6.
Proof.
  intros [H1 H2]. replace ((-20001 / 10000) + (1) * d ^ 1 + (-1 / 2) * d ^ 2 + (1 / 6) * d ^ 3 + (-1 / 24) * d ^ 4 + (1 / 120) * d ^ 5 + (-1 / 2080) * d ^ 6) with (let u := d - (1839 / 500) in let v := (12) - d in (3609467884455013 / 3598556907496316153412960) * (u ^ 0 * v ^ 6) + (1664483842985566225 / 44981961343703951917662) * (u ^ 1 * v ^ 5) + (7835390037154093750 / 22490980671851975958831) * (u ^ 2 * v ^ 4) + (30924249682937500000 / 22490980671851975958831) * (u ^ 3 * v ^ 3) + (58638096593750000000 / 22490980671851975958831) * (u ^ 4 * v ^ 2) + (45532065625000000000 / 22490980671851975958831) * (u ^ 5 * v ^ 1) + (692187500000000 / 7496993557283991986277) * (u ^ 6 * v ^ 0)) by (cbv zeta; field).
  cbv zeta. assert (Hu : 0 <= d - (1839 / 500)) by lra. assert (Hv : 0 <= (12) - d) by lra.
  repeat apply Rplus_le_le_0_compat; (apply Rmult_le_pos; [lra|apply Rmult_le_pos; apply pow_le; assumption]).
Qed.
Lemma fb_beyond d : (481 / 40) <= d -> 0 < (0) + (-1) * d ^ 1 + (1 / 2) * d ^ 2 + (-1 / 6) * d ^ 3 + (1 / 24) * d ^ 4 + (-1 / 120) * d ^ 5 + (1 / 2080) * d ^ 6.
Proof.
  intros H1. replace ((0) + (-1) * d ^ 1 + (1 / 2) * d ^ 2 + (-1 / 6) * d ^ 3 + (1 / 24) * d ^ 4 + (-1 / 120) * d ^ 5 + (1 / 2080) * d ^ 6) with (let u := d - (481 / 40) in (22553258351 / 1966080000000) + (676648272831 / 8192000000) * u ^ 1 + (8976210733 / 245760000) * u ^ 2 + (9994591 / 1536000) * u ^ 3 + (29871 / 51200) * u ^ 4 + (253 / 9600) * u ^ 5 + (1 / 2080) * u ^ 6) by (cbv zeta; field).
  cbv zeta. assert (Hu : 0 <= d - (481 / 40)) by lra.
  repeat (apply Rplus_lt_le_0_compat; [|apply Rmult_le_pos; [lra|apply pow_le; assumption]]). lra.
Qed.

(** ** The coefficients of a strictly lower triangular method *)
Section Top.
  Variables (s : nat) (a : nat -> nat -> R) (b : nat -> R).
  Hypothesis Hlow : forall i j, (i <= j)%nat -> (j < s)%nat -> a i j = 0.
  Fixpoint subdiagonal (m : nat) : R := match m with O => 1 | S k => a (S k) k * subdiagonal k end.
  Lemma power_low m : forall i, (i < s)%nat -> (i < m)%nat -> power_sums s a m i = 0.
  Proof.
    induction m as [|m IH]; intros i Hi Hm; [lia|]. cbn [power_sums]. apply Rsum_0. intros j Hj. destruct (Nat.le_gt_cases i j) as [E|E]; [rewrite Hlow by assumption; ring|].
    rewrite IH by lia. ring.
  Qed.
  Lemma power_diag m : (m < s)%nat -> power_sums s a m m = subdiagonal m.
  Proof.
    induction m as [|m IH]; intros Hm; [reflexivity|]. cbn [power_sums subdiagonal]. rewrite (Rsum_single s m); [rewrite IH by lia; reflexivity|lia|].
    intros j Hj Hne. destruct (Nat.lt_ge_cases j m) as [E|E]; [rewrite power_low by assumption; ring|rewrite Hlow by lia; ring].
  Qed.
  Lemma top_coeff m : (m < s)%nat -> (forall i, (m < i < s)%nat -> b i = 0) -> stab_coeff s a b (S m) = b m * subdiagonal m.
  Proof.
    intros Hm Hb. cbn [stab_coeff]. rewrite (Rsum_single s m); [rewrite power_diag by exact Hm; reflexivity|exact Hm|].
    intros i Hi Hne. destruct (Nat.lt_ge_cases i m) as [E|E]; [rewrite power_low by assumption; ring|rewrite Hb by lia; ring].
  Qed.
End Top.

Lemma low_coeff m p p2 sc : In (m, p, p2) explicit_orders -> erk_get_coefficients (T := R) m = Ok sc -> forall i, (i <= p)%nat ->
  stab_coeff (length (sc_b sc)) (mentry (sc_A sc)) (ventry (sc_b sc)) i = 1 / INR (fact i).
Proof.
  intros Hin Hg i Hi. destruct (TablesFinal.erk_orders m p p2 Hin) as (sc' & s & Hfa). pose proof (ef_get _ _ _ _ _ Hfa) as Hg'. rewrite Hg in Hg'. injection Hg' as <-.
  destruct (dims_of sc s (ef_dims _ _ _ _ _ Hfa)) as (Ls & _). rewrite Ls. destruct (ef_exact _ _ _ _ _ Hfa) as [Ho _]. exact (stab_coeff_order _ _ _ _ Ho i Hi).
Qed.

Section Polys.
  Variable sc : solver_coeffs R.
  Notation P := (stability (length (sc_b sc)) (mentry (sc_A sc)) (ventry (sc_b sc))).
  Lemma poly_euler z : erk_get_coefficients EXPLICIT_EULER = Ok sc -> P z = 1 + z.
  Proof.
    intros Hg. pose proof (low_coeff EXPLICIT_EULER 1 None sc ltac:(cbn; tauto) Hg) as Hl. pose proof (erk_get_det _ _ _ Hg eq_refl) as E. 
    assert (L : length (sc_b sc) = 1%nat) by (rewrite E; reflexivity). unfold stability. rewrite L in * . cbn [Rsum]. rewrite !Hl by lia. cbn. lra.
  Qed.
  Lemma poly_rk4 z : erk_get_coefficients RUNGE_KUTTA_4 = Ok sc -> P z = 1 + z + z ^ 2 / 2 + z ^ 3 / 6 + z ^ 4 / 24.
  Proof.
    intros Hg. pose proof (low_coeff RUNGE_KUTTA_4 4 None sc ltac:(cbn; tauto) Hg) as Hl. pose proof (erk_get_det _ _ _ Hg eq_refl) as E. 
    assert (L : length (sc_b sc) = 4%nat) by (rewrite E; reflexivity). unfold stability. rewrite L in * . cbn [Rsum]. rewrite !Hl by lia. cbn [fact Nat.mul Nat.add INR]. field.
  Qed.
  Lemma low_entries m : In m explicit_methods -> erk_get_coefficients m = Ok sc -> forall i j, (i <= j)%nat -> (j < length (sc_b sc))%nat -> mentry (sc_A sc) i j = 0.
  Proof. intros Hm Hg i j Hij Hj. apply (proj2 (erk_rows m sc Hm Hg) i); lia. Qed.
  Lemma poly_bs z : erk_get_coefficients BOGACKI_SHAMPINE_32 = Ok sc -> P z = 1 + z + z ^ 2 / 2 + z ^ 3 / 6.
  Proof.
    intros Hg. pose proof (low_coeff BOGACKI_SHAMPINE_32 3 (Some 2%nat) sc ltac:(cbn; tauto) Hg) as Hl. pose proof (low_entries BOGACKI_SHAMPINE_32 ltac:(cbn; tauto) Hg) as Ha. pose proof (erk_get_det _ _ _ Hg eq_refl) as E. 
    assert (L : length (sc_b sc) = 4%nat) by (rewrite E; reflexivity). unfold stability. rewrite L in * . cbn [Rsum]. rewrite (top_coeff 4 _ _ Ha 3) by lia. rewrite !Hl by lia.
    replace (ventry (sc_b sc) 3) with 0 by (rewrite E; cbn; lra). cbn [fact Nat.mul Nat.add INR]. field.
  Qed.
  Lemma poly_ck z : erk_get_coefficients CASH_KARP_54 = Ok sc -> P z = 1 + z + z ^ 2 / 2 + z ^ 3 / 6 + z ^ 4 / 24 + z ^ 5 / 120 + z ^ 6 / 800.
  Proof.
    intros Hg. pose proof (low_coeff CASH_KARP_54 5 (Some 4%nat) sc ltac:(cbn; tauto) Hg) as Hl. pose proof (low_entries CASH_KARP_54 ltac:(cbn; tauto) Hg) as Ha. pose proof (erk_get_det _ _ _ Hg eq_refl) as E. 
    assert (L : length (sc_b sc) = 6%nat) by (rewrite E; reflexivity). unfold stability. rewrite L in * . cbn [Rsum]. rewrite (top_coeff 6 _ _ Ha 5) by lia. rewrite !Hl by lia.
    replace (ventry (sc_b sc) 5 * subdiagonal (mentry (sc_A sc)) 5) with (/ 800) by (rewrite E; cbn; lra). cbn [fact Nat.mul Nat.add INR]. field.
  Qed.
  Lemma poly_dp z : erk_get_coefficients DORMAND_PRINCE_54 = Ok sc -> P z = 1 + z + z ^ 2 / 2 + z ^ 3 / 6 + z ^ 4 / 24 + z ^ 5 / 120 + z ^ 6 / 600.
  Proof.
    intros Hg. pose proof (low_coeff DORMAND_PRINCE_54 5 (Some 4%nat) sc ltac:(cbn; tauto) Hg) as Hl. pose proof (low_entries DORMAND_PRINCE_54 ltac:(cbn; tauto) Hg) as Ha. pose proof (erk_get_det _ _ _ Hg eq_refl) as E. 
    assert (L : length (sc_b sc) = 7%nat) by (rewrite E; reflexivity). assert (B6 : ventry (sc_b sc) 6 = 0) by (rewrite E; cbn; lra).
    unfold stability. rewrite L in * . cbn [Rsum]. rewrite (top_coeff 7 _ _ Ha 6) by lia. rewrite (top_coeff 7 _ _ Ha 5); [|lia|intros i Hi; replace i with 6%nat by lia; exact B6]. rewrite !Hl by lia. rewrite B6.
    replace (ventry (sc_b sc) 5 * subdiagonal (mentry (sc_A sc)) 5) with (/ 600) by (rewrite E; cbn; lra). cbn [fact Nat.mul Nat.add INR]. field.
  Qed.
  Lemma poly_fb z : erk_get_coefficients FEHLBERG_54 = Ok sc -> P z = 1 + z + z ^ 2 / 2 + z ^ 3 / 6 + z ^ 4 / 24 + z ^ 5 / 120 + z ^ 6 / 2080.
  Proof.
    intros Hg. pose proof (low_coeff FEHLBERG_54 5 (Some 4%nat) sc ltac:(cbn; tauto) Hg) as Hl. pose proof (low_entries FEHLBERG_54 ltac:(cbn; tauto) Hg) as Ha. pose proof (erk_get_det _ _ _ Hg eq_refl) as E. 
    assert (L : length (sc_b sc) = 6%nat) by (rewrite E; reflexivity). unfold stability. rewrite L in * . cbn [Rsum]. rewrite (top_coeff 6 _ _ Ha 5) by lia. rewrite !Hl by lia.
    replace (ventry (sc_b sc) 5 * subdiagonal (mentry (sc_A sc)) 5) with (/ 2080) by (rewrite E; cbn; lra). cbn [fact Nat.mul Nat.add INR]. field.
  Qed.
  (** steps with hl in the interval do not grow, steps beyond grow *)
  Lemma limits_hold m z1 z2 z3 d : In (m, z1, z2, z3) real_limits -> erk_get_coefficients m = Ok sc ->
    (0 <= d <= z1 -> Rabs (P (- d)) <= 1) /\ (z2 < d <= 12 \/ z3 < d -> 1 < Rabs (P (- d))).
  Proof.
    intros Hm Hg. unfold real_limits in Hm. cbn [In] in Hm. destruct Hm as [E|[E|[E|[E|[E|[E|[]]]]]]]; injection E as <- <- <- <-.
    - rewrite (poly_euler _ Hg). split; [intros Hd; apply Rabs_le; lra|]. intros Hd. rewrite Rabs_left by lra. lra.
    - rewrite (poly_rk4 _ Hg). split; [intros Hd; pose proof (rk4_le1 d ltac:(lra)); pose proof (rk4_gem1 d ltac:(lra)); apply Rabs_le; split; lra|].
      intros Hd. pose proof (rk4_beyond d ltac:(lra)). rewrite Rabs_right by lra. lra.
    - rewrite (poly_bs _ Hg). split; [intros Hd; pose proof (bs_le1 d ltac:(lra)); pose proof (bs_gem1 d ltac:(lra)); apply Rabs_le; split; lra|].
      intros Hd. pose proof (bs_beyond d ltac:(lra)). rewrite Rabs_left by lra. lra.
    - rewrite (poly_ck _ Hg). split; [intros Hd; pose proof (ck_le1 d ltac:(lra)); pose proof (ck_gem1 d ltac:(lra)); apply Rabs_le; split; lra|].
      intros Hd. pose proof (ck_beyond d ltac:(lra)). rewrite Rabs_right by lra. lra.
    - rewrite (poly_dp _ Hg). split; [intros Hd; pose proof (dp_le1 d ltac:(lra)); pose proof (dp_gem1 d ltac:(lra)); apply Rabs_le; split; lra|].
      intros Hd. pose proof (dp_beyond d ltac:(lra)). rewrite Rabs_right by lra. lra.
    - rewrite (poly_fb _ Hg). split; [intros Hd; pose proof (fb_le1 d ltac:(lra)); pose proof (fb_gem1 d ltac:(lra)); apply Rabs_le; split; lra|].
      intros [Hd|Hd]; [pose proof (fb_middle d ltac:(lra)); rewrite Rabs_left by lra; lra|]. pose proof (fb_beyond d ltac:(lra)). rewrite Rabs_right by lra. lra.
  Qed.
  (** at -1/2 every explicit method damps *)
  Lemma half_damps m : In m explicit_methods -> erk_get_coefficients m = Ok sc -> 0 < P (- (1 / 2)) < 1.
  Proof.
    intros Hm Hg. unfold explicit_methods in Hm. cbn [In] in Hm. destruct Hm as [<-|[<-|[<-|[<-|[<-|[<-|[]]]]]]].
    - rewrite (poly_euler _ Hg). lra.
    - rewrite (poly_rk4 _ Hg). lra.
    - rewrite (poly_bs _ Hg). lra.
    - rewrite (poly_ck _ Hg). lra.
    - rewrite (poly_dp _ Hg). lra.
    - rewrite (poly_fb _ Hg). lra.
  Qed.
End Polys.
