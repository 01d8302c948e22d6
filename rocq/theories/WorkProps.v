(** C113: offsets are part of the linear predictor.  C114: the estimated scale is Pearson's.  C115: the Hessian of
    additive models uses the expected weights. *)

From Coq Require Import List Arith Bool Reals Lra Lia.
From Verif Require Import FamModel WorkModel WorkSpec WorkProofs.
Import ListNotations.
Local Open Scope R_scope.

(** ** C113 *)

(** Gaussian models with identity link, data not read from files: if without an offset the solver returns a minimiser of the sum
    of squares then with an offset the returned coefficients minimise the sum of squares around X coef + offset, this is the
    returned predictor, and the residuals are taken from it. *)
Theorem C113_gaussian solve lin o y :
  length o = length y -> (forall c, length (lin c) = length y) ->
  (forall y' c, length y' = length y -> square_loss lin (solve y') y' <= square_loss lin c y') ->
  let '(coef, eta, wres) := fit_gaussian solve lin false (Some o) y in
  (forall c, offset_loss lin o coef y <= offset_loss lin o c y) /\
  (forall r, (r < length y)%nat -> nth r eta 0 = nth r (lin coef) 0 + nth r o 0) /\
  (forall r, (r < length y)%nat -> nth r wres 0 = nth r y 0 - nth r eta 0).
Proof. exact (gaussian_offset solve lin o y). Qed.

(** A model with an intercept and one row. *)
Definition lin1 (c : list R) : list R := [nth 0 c 0].
Definition solve1 (y : list R) : list R := [nth 0 y 0].
Lemma solve1_best y y' c : length y' = length (A:=R) [y] ->
  square_loss lin1 (solve1 y') y' <= square_loss lin1 c y'.
Proof.
  destruct y' as [|a [|b y']]; try discriminate. intros _.
  cbv -[Rplus Rmult Rminus Rle IZR pow nth]. cbn [nth].
  replace (a - a) with 0 by ring. generalize (pow2_ge_0 (a - nth 0 c 0)). lra.
Qed.
Example C113_gaussian_case :
  fit_gaussian solve1 lin1 false (Some [2]) [5] = ([5 - 2], [5 - 2 + 2], [5 - 2 - (5 - 2)]) /\
  forall y' c, length y' = length (A:=R) [5] -> square_loss lin1 (solve1 y') y' <= square_loss lin1 c y'.
Proof. split; [reflexivity|]. intros y' c. apply solve1_best. Qed.

(** With the same solver, data read from files: the offset is ignored; the returned predictor omits it and the returned
    coefficients do not minimise the sum of squares around X coef + offset. *)
Theorem C113_files_refuted :
  exists solve lin o y,
    length o = length y /\ (forall c, length (lin c) = length y) /\
    (forall y' c, length y' = length y -> square_loss lin (solve y') y' <= square_loss lin c y') /\
    let '(coef, eta, _) := fit_gaussian solve lin true (Some o) y in
    (exists c, offset_loss lin o c y < offset_loss lin o coef y) /\
    (exists r, (r < length y)%nat /\ nth r eta 0 <> nth r (lin coef) 0 + nth r o 0).
Proof.
  exists solve1, lin1, [2], [5]. repeat split.
  - intros y' c. apply solve1_best.
  - exists [3]. cbv -[Rplus Rmult Rminus Rlt IZR pow nth]. cbn [nth pow]. lra.
  - exists 0%nat. split; [simpl; lia|]. simpl. lra.
Qed.

(** Other families: the working residuals and the estimated scale depend on the offset although the mean does not
    change.  One observation 2 with mean 1 under Gamma's variance and the log link; predictor 0 is -1 plus offset 1.  The working residual
    is 0 rather than 1 and so is the scale, estimated here for given edf 0. *)
Theorem C113_scale_refuted :
  exists dy1 V bad y mu lin offset,
    regular dy1 V bad y mu /\ length y = length offset /\ length lin = length offset /\ length mu = length lin /\
    dy1 = Rinv /\ (forall m, V m = m ^ 2) /\ Forall2 (fun m e => m = exp e) mu (vadd lin offset) /\
    pearson V bad y mu / (INR (used bad y mu) - 0) = 1 /\
    snd (settled_scale dy1 V bad y mu lin offset 1 [] (Some 0) None) = 0.
Proof.
  exists Rinv, (fun m => m ^ 2), (fun _ _ => false), [2], [1], [- (1)], [1].
  repeat split.
  - constructor; [|constructor]. simpl. intros _. rewrite Rinv_1. split; lra.
  - constructor; [|constructor]. simpl. rewrite Rplus_opp_l, exp_0. reflexivity.
  - cbv -[Rplus Rmult Rminus Rdiv Rinv IZR pow INR]. simpl. field.
  - unfold settled_scale, update_PIRLS, pdat, update_scale_edf, working_resid, est_scale, fisher_row, dot.
    simpl. unfold fisher_row. simpl. rewrite Rinv_1. unfold Rdiv.
    replace (1 * (2 - 1) + (- (1) + 1 - 1) - (- (1) + 1)) with 0 by ring.
    ring.
Qed.

(** ** C114 *)

(** Without offset, and without dropped coefficients if no term is penalised, the scale is Pearson's statistic over the
    rows that are used, divided by their number less the effective degrees of freedom. *)
Theorem C114_scale dy1 V bad y mu lin offset colsX drop pen_edf :
  length y = length mu -> length mu = length lin -> length lin = length offset ->
  Forall (eq 0) offset -> (pen_edf = None -> drop = []) -> regular dy1 V bad y mu ->
  snd (settled_scale dy1 V bad y mu lin offset colsX drop pen_edf None)
  = pearson V bad y mu / (INR (used bad y mu) - degrees colsX drop pen_edf).
Proof. exact (scale_correct dy1 V bad y mu lin offset colsX drop pen_edf). Qed.

(** Three rows, the second one excluded. *)
Example C114_scale_case :
  let bad := fun (y m : R) => if Req_EM_T m 0 then true else false in
  regular Rinv (fun m => m ^ 2) bad [2; 5; 3] [1; 0; 1] /\
  pearson (fun m => m ^ 2) bad [2; 5; 3] [1; 0; 1] = 5 /\ used bad [2; 5; 3] [1; 0; 1] = 2%nat /\
  Forall (eq 0) [0; 0; 0].
Proof.
  cbv zeta. repeat split.
  - unfold regular. simpl. repeat apply Forall_cons; try apply Forall_nil; simpl; rewrite ?Rinv_1.
    + intros _. split; lra.
    + destruct (Req_EM_T 0 0); [discriminate|lra].
    + intros _. split; lra.
  - simpl. destruct (Req_EM_T 1 0); [lra|]. destruct (Req_EM_T 0 0); [|lra]. field.
  - simpl. destruct (Req_EM_T 1 0); [lra|]. destruct (Req_EM_T 0 0); [|lra]. reflexivity.
  - repeat constructor.
Qed.

(** A model without penalties from which a column was dropped as unidentifiable: three rows, two columns, one dropped.
    The dropped coefficient is counted. *)
Theorem C114_dropped_refuted :
  exists dy1 V bad y mu lin offset colsX drop,
    length y = length mu /\ length mu = length lin /\ length lin = length offset /\
    Forall (eq 0) offset /\ regular dy1 V bad y mu /\ (length drop < colsX)%nat /\
    (colsX < used bad y mu)%nat /\
    snd (settled_scale dy1 V bad y mu lin offset colsX drop None None)
    <> pearson V bad y mu / (INR (used bad y mu) - degrees colsX drop None).
Proof.
  exists (fun _ => 1), (fun _ => 1), (fun _ _ => false), [2; 0; 1], [1; 1; 1], [0; 0; 0], [0; 0; 0], 2%nat, [1%nat].
  repeat split; try (simpl; lia).
  - repeat constructor.
  - repeat constructor; simpl; lra.
  - assert (E : snd (settled_scale (fun _ => 1) (fun _ => 1) (fun _ _ => false) [2; 0; 1] [1; 1; 1] [0; 0; 0] [0; 0; 0] 2 []
                       None None) = 2 / (3 - 2)).
    { rewrite scale_correct; try reflexivity; try (repeat constructor; simpl; lra); try (intros; reflexivity). }
    change (snd (settled_scale (fun _ => 1) (fun _ => 1) (fun _ _ => false) [2; 0; 1] [1; 1; 1] [0; 0; 0] [0; 0; 0] 2 [1%nat]
                       None None)) with
     (snd (settled_scale (fun _ => 1) (fun _ => 1) (fun _ _ => false) [2; 0; 1] [1; 1; 1] [0; 0; 0] [0; 0; 0] 2 []
                       None None)).
    rewrite E. unfold degrees. simpl. lra.
Qed.

(** ** C115 *)

(** Without excluded rows the stored Hessian is minus X^T W X over the scale, with expected weights W. *)
Theorem C115_hessian dy1 V bad X y mu eta scale i j :
  length X = length y -> length y = length mu -> length mu = length eta ->
  Forall (fun p => bad (fst p) (snd p) = false) (combine y mu) -> regular dy1 V bad y mu ->
  fit_hessian dy1 V bad X y mu eta scale i j = - information dy1 V bad X y mu i j / scale.
Proof. exact (hessian_correct dy1 V bad X y mu eta scale i j). Qed.

Example C115_hessian_case :
  regular Rinv (fun m => m) (fun _ _ => false) [2; 3] [1; 4] /\
  information Rinv (fun m => m) (fun _ _ => false) [[1; 2]; [1; 3]] [2; 3] [1; 4] 0 1 = 14.
Proof.
  split.
  - repeat constructor; simpl; lra.
  - simpl. field.
Qed.

(** With an excluded row the root of the weights is taken twice: a row with weight 4 counts as one with weight 2. *)
Theorem C115_excluded_refuted :
  exists dy1 V bad X y mu eta scale i j,
    length X = length y /\ length y = length mu /\ length mu = length eta /\ regular dy1 V bad y mu /\ 0 < scale /\
    fit_hessian dy1 V bad X y mu eta scale i j <> - information dy1 V bad X y mu i j / scale.
Proof.
  exists (fun _ => 1), (fun _ => / 4), (fun y _ => if Req_EM_T y 0 then true else false),
    [[1]; [1]], [0; 1], [1; 1], [0; 0], 1, 0%nat, 0%nat.
  repeat split; try lra.
  - repeat constructor; simpl; lra.
  - unfold fit_hessian, update_PIRLS, pdat, final_Wr, hessian, dot, fisher_row. simpl.
    destruct (Req_EM_T 0 0) as [_|n]; [|lra]. destruct (Req_EM_T 1 0) as [e|_]; [lra|].
    simpl. replace (1 / (1 * (1 * 1) * / 4)) with (2 * 2) by field.
    rewrite (sqrt_square 2), (sqrt_sqrt 2), sqrt_0 by lra.
    replace (1 * 1 / (1 * (1 * 1) * / 4)) with 4 by field. lra.
Qed.

Print Assumptions C113_gaussian.
Print Assumptions C113_files_refuted.
Print Assumptions C113_scale_refuted.
Print Assumptions C114_scale.
Print Assumptions C114_dropped_refuted.
Print Assumptions C115_hessian.
Print Assumptions C115_excluded_refuted.
