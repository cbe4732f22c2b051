(** Model of the MATLAB prototype of the solver, matlab/prototype code/qpSWIFT_matlab.m and the functions it calls
    (qpSWIFT_checkinputs.m, qpSWIFT_init.m, findsteplength.m, my_Trans_multiply_diag.m, my_inverse_diag_matrix.m), in
    exact arithmetic.  Matrices and vectors are functions on indices from 0 (MATLAB counts from 1).

    Simplifications: the checks of checkinputs only print, so consistent sizes and column vectors are assumed; the
    operator \ is a relation that holds for the unique solution of a system with a nonsingular matrix (MATLAB warns and
    returns something otherwise); [condest], [disp], the histories x_sol, s_sol, z_sol and no_Ineq_vio are left out; the arguments x0, s0, z0
    are not given. *)
From Coq Require Import ZArith Reals Lia Lra.
From Verif Require Import Lists QpSpec StepSpec.
Open Scope R_scope.

(** qpSWIFT_checkinputs.m:3-7: P = (P + P')./2 unless it is symmetric, in which case that changes nothing. *)
Definition m_checkinputs (Q : QPdata) : QPdata :=
  mkQPd (dn Q) (dm Q) (dp Q) (fun i j => (dP Q i j + dP Q j i) / 2) (dA Q) (dG Q) (dc Q) (db Q) (dh Q).

(** max of a vector of length S k *)
Fixpoint m_maxn (f : Z -> R) (k : nat) : R :=
  match k with O => f 0%Z | S k => Rmax (m_maxn f k) (f (Z.of_nat (S k))) end.
Definition m_max (f : Z -> R) (m : Z) : R := m_maxn f (Z.to_nat (m - 1)).
Definition m_min (f : Z -> R) (m : Z) : R := - m_max (fun i => - f i) m.

(** Phi\r for a square matrix of size N. *)
Definition m_solution (N : Z) (Phi : Z -> Z -> R) (r D : Z -> R) : Prop :=
  forall i, (0 <= i < N)%Z -> Sum N (fun j => Phi i j * D j) = r i.
Definition m_backslash (N : Z) (Phi : Z -> Z -> R) (r D : Z -> R) : Prop :=
  m_solution N Phi r D /\ forall D', m_solution N Phi (fun _ => 0) D' -> forall i, (0 <= i < N)%Z -> D' i = 0.

(** findsteplength.m:3-6.  Division by a zero Delta_s gives Inf > 0 for s > 0, so -1000 as well. *)
Definition m_test (s d : Z -> R) (i : Z) : R :=
  if Req_EM_T (d i) 0 then -1000 else if Rlt_dec 0 (s i / d i) then -1000 else s i / d i.
Definition m_findsteplength (s d : Z -> R) (m : Z) : R := - m_max (m_test s d) m.

Section Proto.
(** The data after qpSWIFT_checkinputs. *)
Variable Q : QPdata.
Notation n := (dn Q).
Notation m := (dm Q).
Notation p := (dp Q).

(** [P A' G'; A 0 0; G 0 -WTW], qpSWIFT_init.m:4,9 and qpSWIFT_matlab.m:74,82,104,112; [P G'; G -WTW] when p is 0. *)
Definition m_Phi (WTW : Z -> R) (a c : Z) : R :=
  if (a <? n)%Z then
    (if (c <? n)%Z then dP Q a c else if (c <? n + p)%Z then dA Q (c - n) a else dG Q (c - n - p) a)
  else if (a <? n + p)%Z then (if (c <? n)%Z then dA Q (a - n) c else 0)
  else (if (c <? n)%Z then dG Q (a - n - p) c else if (c <? n + p)%Z then 0
        else if (a =? c)%Z then - WTW (a - n - p)%Z else 0).

(** [u;v;w] *)
Definition m_stack (u v w : Z -> R) (a : Z) : R :=
  if (a <? n)%Z then u a else if (a <? n + p)%Z then v (a - n)%Z else w (a - n - p)%Z.

(** qpSWIFT_init.m:3-30 *)
Definition m_init (v : vars) : Prop :=
  exists X, m_backslash (n + p + m) (m_Phi (fun _ => 1)) (m_stack (fun j => - dc Q j) (db Q) (dh Q)) X /\
    (forall i, (0 <= i < n)%Z -> vx v i = X i) /\ (forall i, (0 <= i < p)%Z -> vy v i = X (n + i)%Z) /\
    let z := fun i => Sum n (fun j => dG Q i j * vx v j) - dh Q i in
    let alpha_p := - m_min (fun i => - z i) m in
    let alpha_d := - m_min z m in
    (forall i, (0 <= i < m)%Z -> vs v i = if Rlt_dec alpha_p 0 then - z i else - z i + (1 + alpha_p)) /\
    (forall i, (0 <= i < m)%Z -> vz v i = if Rlt_dec alpha_d 0 then z i else z i + (1 + alpha_d)).

Section At.
Variable v : vars.
Notation x := (vx v).
Notation y := (vy v).
Notation z := (vz v).
Notation s := (vs v).

(** qpSWIFT_matlab.m:36-43; for p = 0 the terms with A are empty sums. *)
Definition m_rx (j : Z) : R :=
  Sum n (fun k => dP Q j k * x k) + Sum p (fun k => dA Q k j * y k) + Sum m (fun i => dG Q i j * z i) + dc Q j.
Definition m_ry (k : Z) : R := Sum n (fun j => dA Q k j * x j) - db Q k.
Definition m_rz (i : Z) : R := s i + Sum n (fun j => dG Q i j * x j) - dh Q i.

(** qpSWIFT_matlab.m:48-56 *)
Definition m_stops : Prop :=
  sqrt (Sum n (fun j => m_rx j * m_rx j) + Sum p (fun k => m_ry k * m_ry k) + Sum m (fun i => m_rz i * m_rz i)) < 1 / 1000000 /\
  Sum m (fun i => s i * z i) / IZR m <= 1 / 1000000.

(** qpSWIFT_matlab.m:61-65; the diagonals of W, WTW and inv(W). *)
Definition m_W (i : Z) : R := sqrt (s i) * (1 / sqrt (z i)).
Definition m_lambda (i : Z) : R := sqrt (s i) * sqrt (z i).
Definition m_mu : R := Sum m (fun i => m_lambda i * m_lambda i) / IZR m.
Definition m_WTW (i : Z) : R := m_W i * m_W i.
Definition m_invW (i : Z) : R := 1 / m_W i.

(** Wlambda_dia_ds, qpSWIFT_matlab.m:70,101 *)
Definition m_Wds (ds : Z -> R) (i : Z) : R := m_W i * (1 / m_lambda i * ds i).

(** Delta = Phi\[-rx;-ry;-rz-Wlambda_dia_ds], qpSWIFT_matlab.m:72-85, 103-118 *)
Definition m_Delta (ds D : Z -> R) : Prop :=
  m_backslash (n + p + m) (m_Phi m_WTW) (m_stack (fun j => - m_rx j) (fun k => - m_ry k) (fun i => - m_rz i - m_Wds ds i)) D.
Definition m_Dz (D : Z -> R) (i : Z) : R := D (n + p + i)%Z.
(** Delta_s = Wlambda_dia_ds-WTW*Delta_z, lines 87, 120 *)
Definition m_Ds (ds D : Z -> R) (i : Z) : R := m_Wds ds i - m_WTW i * m_Dz D i.

(** qpSWIFT_matlab.m:68-99: sigma and ds. *)
Inductive m_sigma_ds (sigma_d sigma : R) (sigma' : R) (ds : Z -> R) : Prop :=
| m_predictor (D : Z -> R) :
    sigma_d < sigma ->
    let ds0 := fun i => - m_lambda i * m_lambda i in
    m_Delta ds0 D ->
    let Dz := m_Dz D in
    let Ds := m_Ds ds0 D in
    let alpha_p := m_findsteplength s Ds m in                                        (* 89 *)
    let alpha_d := m_findsteplength z Dz m in                                        (* 91 *)
    let rho := Sum m (fun i => (s i + alpha_p * Ds i) * (z i + alpha_d * Dz i)) / Sum m (fun i => s i * z i) in  (* 93 *)
    sigma' = Rmax sigma_d (Rmin 1 rho ^ 3) ->                                        (* 94 *)
    (forall i, (0 <= i < m)%Z ->                                                     (* 95 *)
       ds i = - m_lambda i * m_lambda i - (m_invW i * Ds i) * (m_W i * Dz i) + sigma' * m_mu) ->
    m_sigma_ds sigma_d sigma sigma' ds
| m_center :
    sigma <= sigma_d -> sigma' = sigma_d ->                                          (* 97-98 *)
    (forall i, (0 <= i < m)%Z -> ds i = - m_lambda i * m_lambda i + sigma' * m_mu) ->
    m_sigma_ds sigma_d sigma sigma' ds.

(** One pass of the loop that does not stop, qpSWIFT_matlab.m:61-143. *)
Definition m_pass (sigma_d sigma : R) (v' : vars) (alpha_p alpha_d sigma' : R) : Prop :=
  exists ds D, m_sigma_ds sigma_d sigma sigma' ds /\ m_Delta ds D /\
    let Dz := m_Dz D in let Ds := m_Ds ds D in
    alpha_p = Rmin (99 / 100 * m_findsteplength s Ds m) 1 /\                          (* 122, 125 *)
    alpha_d = Rmin (99 / 100 * m_findsteplength z Dz m) 1 /\                          (* 123, 126 *)
    (forall i, (0 <= i < n)%Z -> vx v' i = x i + alpha_p * D i) /\
    (forall i, (0 <= i < p)%Z -> vy v' i = y i + alpha_d * D (n + i)%Z) /\
    (forall i, (0 <= i < m)%Z -> vs v' i = s i + alpha_p * Ds i) /\
    (forall i, (0 <= i < m)%Z -> vz v' i = z i + alpha_d * Dz i).
End At.

(** The first [k] passes of the loop, qpSWIFT_matlab.m:13-146; sigma starts at 100. *)
Record m_passes (sigma_d : R) (k : nat) (V : nat -> vars) (sigma alpha_p alpha_d : nat -> R) : Prop := mkPasses {
  mp_init : m_init (V O);
  mp_sigma : sigma O = 100;
  mp_pass : forall i, (i < k)%nat -> ~ m_stops (V i) /\ m_pass (V i) sigma_d (sigma i) (V (S i)) (alpha_p i) (alpha_d i) (sigma (S i))
}.

(** The loop as a whole: it is left at [break] with itr = k, or after itr = 100. *)
Definition m_run (sigma_d : R) (k : nat) (V : nat -> vars) (sigma alpha_p alpha_d : nat -> R) : Prop :=
  m_passes sigma_d k V sigma alpha_p alpha_d /\ ((k <= 100)%nat /\ m_stops (V k) \/ k = 101%nat).
End Proto.
