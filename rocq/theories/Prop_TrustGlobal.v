(** Property theorems: TrustGlobal.
    Statements only; each is closed by the lemma of the same name (suffix _pf)
    in the proof file.  [Example]s show concrete cases meeting the hypotheses. *)

From Coq Require Import Classical String List Bool Arith Lia ZArith QArith Qreals Reals Lra Psatz.
From Verif Require Import Num NumFacts Vec Results Iterate Spec_Iterate Iterate_proofs.
From Verif Require Import Spec_Vec VecFacts Spec_Lin LinFacts.
From Verif Require Import Search Spec_Search Descent Minimisers Solvers Minimisers_proofs.
From Verif Require Import TrustRegion_proofs LeastSquares_proofs Dogleg_proofs Spec_Steps Steps_proofs Spec_Convergence Convergence_proofs.
From Verif Require Import GaussNewton_proofs DoglegConv_proofs IndirectConv_proofs GaussNewtonConv_proofs Spec_IndirectConv Spec_Rates Rates_proofs LMLocal_proofs TrustLocal_proofs.
Import ListNotations.
Local Open Scope nat_scope.
From Verif Require Import TrustGlobal_proofs.

(** IndirectLevenbergMarquardt in exact arithmetic with exact least-squares solves, whatever its inner root finder returns: any run, from any start,
    whose iterate j+1 is within rho of a zero of the residuals (the conditions of C101 and C102 holding there) rejects no further step, comes no
    farther from the zero, multiplies its step size by 7/2 at every step until the step size reaches 1 (or the iterate is the zero), and from then on takes the
    Newton step: its convergence becomes quadratic, |y_(k+1) - root| <= b gamma / sigma |y_k - root|^2. *)
Theorem C103_entering :
  forall (Aux : Type) (P : ar_tols RN) (eps fmax : R) lsolve rfind jac_of (fn : list R -> list R * Aux)
         (n m : nat) (y0 root : list R) fs auxs (sigma b gamma rho : R) st0 (j : nat),
    let r x := fst (fn x) in let J := jac_of fn in
    let near x := length x = n /\ (Rnorm (Rsub_v x root) <= rho)%R in
    (0 <= eps)%R -> (0 < fmax)%R -> exact_least_squares n lsolve -> residual_problem n m r J ->
    length root = n -> r root = zerov m -> (0 < sigma)%R -> (0 <= b)%R -> (0 <= gamma)%R ->
    (forall x v, near x -> length v = n ->
       sigma * Rdot v v <= Rdot (op_mv (J x) v) (op_mv (J x) v) /\ Rdot (op_mv (J x) v) (op_mv (J x) v) <= b * b * Rdot v v)%R ->
    (forall x x', near x -> near x' ->
       Rnorm (Rsub_v (Rsub_v (r x') (r x)) (op_mv (J x) (Rsub_v x' x))) <= gamma * Rdot (Rsub_v x' x) (Rsub_v x' x))%R ->
    (b * gamma * rho + 3 * (gamma * rho) * (gamma * rho) < sigma / 200)%R -> length y0 = n ->
    let s := IndirectLevenbergMarquardt (N:=RN) P jac_of lsolve eps fmax rfind in
    s_init s fn y0 fs auxs = Ret st0 ->
    let y k : list R := y_at s fn y0 st0 (auxs fill0) (S (j + k)) in
    let st k := st_at s fn y0 st0 (auxs fill0) (S (j + k)) in
    let radius k : R := gn_search_state (st k) in
    near (y 0) ->
    let e k := Rnorm (Rsub_v (y k) root) in
    (forall k, gn_num_accepted_steps (st k) = gn_num_accepted_steps (st 0) + k) /\
    (forall k, e (S k) <= e k)%R /\
    (forall k, y k = root \/ radius k = (radius 0%nat * (7 / 2) ^ k)%R) /\
    exists K, forall k, K <= k ->
      y (S k) = Rsub_v (y k) (fst (lsolve (J (y k)) (r (y k)))) /\ (e (S k) <= b * gamma / sigma * (e k * e k))%R /\ (e (S k) <= / 200 * e k)%R.
Proof. exact C103_entering_pf. Qed.
Print Assumptions C103_entering.

(** Globally: under C83's conditions for IndirectLevenbergMarquardt (1/2 |r|^2 smooth, sigma0 |v|^2 <= |J v|^2 <= B |v|^2 and |J^T r|^2 >= mu |r|^2
    everywhere, an inner root finder accurate to half the radius), residuals bounding the distance to their zero and the local conditions
    near it: from every start the run comes within rho of the root, never rejects a step afterwards, and converges quadratically. *)
Theorem C103_global :
  forall (Aux : Type) (P : ar_tols RN) (eps fmax : R) lsolve rfind jac_of (fn : list R -> list R * Aux)
         (n m : nat) (y0 root : list R) fs auxs (L B sigma0 mu c sigma b gamma rho : R) st0,
    let r x := fst (fn x) in let J := jac_of fn in
    let near x := length x = n /\ (Rnorm (Rsub_v x root) <= rho)%R in
    (0 <= eps)%R -> (0 < fmax)%R -> exact_least_squares n lsolve -> (forall A b, snd (lsolve A b) = successful) -> residual_problem n m r J ->
    smooth n L (half_squares r) (ls_gradient r J) -> (0 < sigma0 <= B)%R -> jac_bounded n B J -> jac_injective n sigma0 J ->
    (0 < mu <= L)%R -> (forall x, length x = n -> mu * Rdot (r x) (r x) <= Rdot (ls_gradient r J x) (ls_gradient r J x))%R ->
    finds_damping eps (2 * sigma0 / (3 * (B + 50 * L / 99)) / 4) n r J (fun x => Rnorm (fst (lsolve (J x) (r x)))) rfind ->
    (0 < c)%R -> (forall x, length x = n -> c * Rdot (Rsub_v x root) (Rsub_v x root) <= Rdot (r x) (r x))%R ->
    length root = n -> r root = zerov m -> (0 < sigma)%R -> (0 <= b)%R -> (0 <= gamma)%R -> (0 < rho)%R ->
    (forall x v, near x -> length v = n ->
       sigma * Rdot v v <= Rdot (op_mv (J x) v) (op_mv (J x) v) /\ Rdot (op_mv (J x) v) (op_mv (J x) v) <= b * b * Rdot v v)%R ->
    (forall x x', near x -> near x' ->
       Rnorm (Rsub_v (Rsub_v (r x') (r x)) (op_mv (J x) (Rsub_v x' x))) <= gamma * Rdot (Rsub_v x' x) (Rsub_v x' x))%R ->
    (b * gamma * rho + 3 * (gamma * rho) * (gamma * rho) < sigma / 200)%R -> length y0 = n ->
    let s := IndirectLevenbergMarquardt (N:=RN) P jac_of lsolve eps fmax rfind in
    s_init s fn y0 fs auxs = Ret st0 ->
    let y k : list R := y_at s fn y0 st0 (auxs fill0) k in
    let st k := st_at s fn y0 st0 (auxs fill0) k in
    let e k := Rnorm (Rsub_v (y k) root) in
    exists j, near (y (S j)) /\
      (forall k, S j <= k -> gn_num_accepted_steps (st (S k)) = S (gn_num_accepted_steps (st k))) /\
      exists K, forall k, K <= k -> (e (S k) <= b * gamma / sigma * (e k * e k))%R /\ (e (S k) <= / 200 * e k)%R.
Proof. exact C103_global_pf. Qed.
Print Assumptions C103_global.

(** x and sqrt (1 + x^2) - 1 (C101) from 2 *)
Example C103_global_ex :
  let s := IndirectLevenbergMarquardt (N:=RN) (mkTols (N:=RN) (1/10)%R 1%R max_norm) hyperbola_jac lsolve1 (1/100)%R 1000%R rational_root in
  exists st0, s_init s cup [2%R] (fun _ => [0; 0]%R) (fun _ => tt) = Ret st0 /\
  let e k := Rnorm (Rsub_v (y_at s cup [2%R] st0 tt k : list R) [0%R]) in
  (exists j, (e (S j) <= 1 / 1000)%R) /\ exists K, forall k, K <= k -> (e (S k) <= 3 * (e k * e k))%R.
Proof. exact C103_global_ex_pf. Qed.

(** the same residuals from 1/1000, inside the neighbourhood, with an inner root finder that always answers 7 *)
Example C103_entering_ex :
  let s := IndirectLevenbergMarquardt (N:=RN) (mkTols (N:=RN) (1/10)%R 1%R max_norm) hyperbola_jac lsolve1 (1/100)%R 1000%R (fun _ => 7%R) in
  exists st0, s_init s cup [(1/1000)%R] (fun _ => [0; 0]%R) (fun _ => tt) = Ret st0 /\
  let e k := Rnorm (Rsub_v (y_at s cup [(1/1000)%R] st0 tt (S k) : list R) [0%R]) in
  (forall k, (e (S k) <= e k)%R) /\ exists K, forall k, K <= k -> (e (S k) <= / 200 * e k)%R.
Proof. exact C103_entering_ex_pf. Qed.

(** Dogleg in exact arithmetic with exact least-squares solves: any run, from any start, whose iterate j+1 is within rho of a zero of the residuals (the
    conditions of C101 and C102 holding there) and so close that 3 (b + gamma rho) |y - root| <= sqrt sigma rho: it stays within rho and rejects
    no further step; and either it once takes a zero step, its step size being below 1 and the Cauchy point no longer than eps (the cutoff in
    DoglegDescent), or its convergence becomes quadratic, |y_(k+1) - root| <= b gamma / sigma |y_k - root|^2. *)
Theorem C103_dogleg_entering :
  forall (Aux : Type) (P : ar_tols RN) (eps : R) lsolve jac_of (fn : list R -> list R * Aux)
         (n m : nat) (y0 root : list R) fs auxs (sigma b gamma rho : R) st0 (j : nat),
    let r x := fst (fn x) in let J := jac_of fn in
    let near x := length x = n /\ (Rnorm (Rsub_v x root) <= rho)%R in
    let cauchy x : list R := let g := op_mvT (J x) (r x) in let dn := Rdot (op_mv (J x) g) (op_mv (J x) g) in
      Rscal (- (if Rltb eps dn then Rdot g g / dn else 0))%R g in
    (0 <= eps)%R -> exact_least_squares n lsolve -> residual_problem n m r J ->
    length root = n -> r root = zerov m -> (0 < sigma)%R -> (0 <= b)%R -> (0 <= gamma)%R ->
    (forall x v, near x -> length v = n ->
       sigma * Rdot v v <= Rdot (op_mv (J x) v) (op_mv (J x) v) /\ Rdot (op_mv (J x) v) (op_mv (J x) v) <= b * b * Rdot v v)%R ->
    (forall x x', near x -> near x' ->
       Rnorm (Rsub_v (Rsub_v (r x') (r x)) (op_mv (J x) (Rsub_v x' x))) <= gamma * Rdot (Rsub_v x' x) (Rsub_v x' x))%R ->
    (b * gamma * rho + 3 * (gamma * rho) * (gamma * rho) < sigma / 200)%R -> length y0 = n ->
    let s := Dogleg (N:=RN) P jac_of lsolve eps in
    s_init s fn y0 fs auxs = Ret st0 ->
    let y k : list R := y_at s fn y0 st0 (auxs fill0) (S (j + k)) in
    let st k := st_at s fn y0 st0 (auxs fill0) (S (j + k)) in
    let e k := Rnorm (Rsub_v (y k) root) in
    near (y 0) -> (3 * (b + gamma * rho) * e 0%nat <= sqrt sigma * rho)%R ->
    (forall k, near (y k)) /\
    (forall k, gn_num_accepted_steps (st k) = gn_num_accepted_steps (st 0) + k) /\
    ((exists k, y (S k) = y k /\ ((gn_search_state (st k) : R) < 1)%R /\ (Rnorm (cauchy (y k)) <= eps)%R) \/
     exists K, forall k, K <= k -> (e (S k) <= b * gamma / sigma * (e k * e k))%R /\ (e (S k) <= / 200 * e k)%R).
Proof. exact C103_dogleg_entering_pf. Qed.
Print Assumptions C103_dogleg_entering.

(** Globally: under C83's conditions for Dogleg with low = 0, residuals bounding the distance to their zero, the local conditions near it, and eps small enough
    for C83's rate to lead within delta <= rho of the zero (3 (b + gamma rho) delta <= sqrt sigma rho): every run comes that close and rejects no further step, and
    ends quadratically or in a zero step with a Cauchy point no longer than eps. *)
Theorem C103_dogleg_global :
  forall (Aux : Type) (P : ar_tols RN) (eps : R) lsolve jac_of (fn : list R -> list R * Aux)
         (n m : nat) (y0 root : list R) fs auxs (L B sigma0 mu c sigma b gamma rho delta : R) st0,
    let r x := fst (fn x) in let J := jac_of fn in
    let near x := length x = n /\ (Rnorm (Rsub_v x root) <= rho)%R in
    let cauchy x : list R := let g := op_mvT (J x) (r x) in let dn := Rdot (op_mv (J x) g) (op_mv (J x) g) in
      Rscal (- (if Rltb eps dn then Rdot g g / dn else 0))%R g in
    (0 <= eps)%R -> exact_least_squares n lsolve -> residual_problem n m r J ->
    smooth n L (half_squares r) (ls_gradient r J) -> (0 < sigma0 <= B)%R -> jac_bounded n B J -> jac_injective n sigma0 J ->
    (0 < mu <= L)%R -> (forall x, length x = n -> mu * Rdot (r x) (r x) <= Rdot (ls_gradient r J x) (ls_gradient r J x))%R ->
    (0 < c)%R -> (forall x, length x = n -> c * Rdot (Rsub_v x root) (Rsub_v x root) <= Rdot (r x) (r x))%R ->
    length root = n -> r root = zerov m -> (0 < sigma)%R -> (0 <= b)%R -> (0 <= gamma)%R ->
    (forall x v, near x -> length v = n ->
       sigma * Rdot v v <= Rdot (op_mv (J x) v) (op_mv (J x) v) /\ Rdot (op_mv (J x) v) (op_mv (J x) v) <= b * b * Rdot v v)%R ->
    (forall x x', near x -> near x' ->
       Rnorm (Rsub_v (Rsub_v (r x') (r x)) (op_mv (J x) (Rsub_v x' x))) <= gamma * Rdot (Rsub_v x' x) (Rsub_v x' x))%R ->
    (b * gamma * rho + 3 * (gamma * rho) * (gamma * rho) < sigma / 200)%R -> length y0 = n ->
    (0 < delta <= rho)%R -> (3 * (b + gamma * rho) * delta <= sqrt sigma * rho)%R -> (B * B * (eps * eps) / mu <= c * (delta * delta))%R ->
    let s := Dogleg (N:=RN) P jac_of lsolve eps in
    s_init s fn y0 fs auxs = Ret st0 ->
    let y k : list R := y_at s fn y0 st0 (auxs fill0) k in
    let st k := st_at s fn y0 st0 (auxs fill0) k in
    let e k := Rnorm (Rsub_v (y k) root) in
    exists j, (e (S j) <= delta)%R /\ (forall k, S j <= k -> near (y k)) /\
      (forall k, S j <= k -> gn_num_accepted_steps (st (S k)) = S (gn_num_accepted_steps (st k))) /\
      ((exists k, S j <= k /\ y (S k) = y k /\ (Rnorm (cauchy (y k)) <= eps)%R) \/
       exists K, forall k, K <= k -> (e (S k) <= b * gamma / sigma * (e k * e k))%R /\ (e (S k) <= / 200 * e k)%R).
Proof. exact C103_dogleg_global_pf. Qed.
Print Assumptions C103_dogleg_global.

(** from 1/10000 *)
Example C103_dogleg_entering_ex :
  let s := Dogleg (N:=RN) (mkTols (N:=RN) (1/10)%R 1%R max_norm) hyperbola_jac lsolve1 0%R in
  exists st0, s_init s cup [(1/10000)%R] (fun _ => [0; 0]%R) (fun _ => tt) = Ret st0 /\
  let e k := Rnorm (Rsub_v (y_at s cup [(1/10000)%R] st0 tt (S k) : list R) [0%R]) in
  forall k, (e k <= 1 / 1000)%R.
Proof. exact C103_dogleg_entering_ex_pf. Qed.

(** from 2 *)
Example C103_dogleg_global_ex :
  let s := Dogleg (N:=RN) (mkTols (N:=RN) (1/10)%R 1%R max_norm) hyperbola_jac lsolve1 (1/100000)%R in
  exists st0, s_init s cup [2%R] (fun _ => [0; 0]%R) (fun _ => tt) = Ret st0 /\
  let e k := Rnorm (Rsub_v (y_at s cup [2%R] st0 tt k : list R) [0%R]) in
  exists j, (e (S j) <= 1 / 10000)%R /\ forall k, S j <= k -> (e k <= 1 / 1000)%R.
Proof. exact C103_dogleg_global_ex_pf. Qed.
