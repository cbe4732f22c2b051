(** Specification side, independent of the model: elimination orders without small pivots, ratio test, and one
    step of the predictor-corrector method. *)
From Coq Require Import ZArith Reals List Lia Lra.
From Verif Require Import Lists QpSpec.
Open Scope Z_scope.

(** [P A' G'; A 0 0; G 0 -diag w], entry by entry. *)
Definition kkt_matrix (Q : QPdata) (w : Z -> R) (a c : Z) : R :=
  let n := dn Q in let p := dp Q in
  if c <? n then
    (if a <? n then dP Q a c else if a <? n + p then dA Q (a - n) c else dG Q (a - n - p) c)
  else if c <? n + p then (if a <? n then dA Q (c - n) a else 0%R)
  else (if a <? n then dG Q (c - n - p) a else if a =? c then (- w (c - n - p)%Z)%R else 0%R).

Open Scope R_scope.

(** Eliminating in the order [ord] meets no pivot of magnitude 1e-14 or less: the reordered matrix has a
    factorisation L D L' with unit lower triangular L and all pivots larger. *)
Definition regular_order (N : Z) (K : Z -> Z -> R) (ord : Z -> Z) : Prop :=
  exists (L : Z -> Z -> R) (D : Z -> R),
    (forall i, (0 <= i < N)%Z -> L i i = 1) /\
    (forall i j, (0 <= i < N)%Z -> (i < j < N)%Z -> L i j = 0) /\
    (forall i k, (0 <= i < N)%Z -> (0 <= k < N)%Z -> K (ord i) (ord k) = Sum N (fun j => L i j * D j * L k j)) /\
    (forall j, (0 <= j < N)%Z -> 1 / 100000000000000 < Rabs (D j)).

(** The factorisation as it is computed: pivots of magnitude 1e-14 or less are replaced by -1e-7, if they are not
    positive, or 1e-7; [e] is the change of the diagonal that amounts to. *)
Definition regularised (N : Z) (K : Z -> Z -> R) (ord : Z -> Z) (e : Z -> R) : Prop :=
  exists (L : Z -> Z -> R) (D : Z -> R),
    (forall i, (0 <= i < N)%Z -> L i i = 1) /\
    (forall i j, (0 <= i < N)%Z -> (i < j < N)%Z -> L i j = 0) /\
    (forall i k, (0 <= i < N)%Z -> (0 <= k < N)%Z ->
       K (ord i) (ord k) + (if (i =? k)%Z then e (ord k) else 0) = Sum N (fun j => L i j * D j * L k j)) /\
    (forall k, (0 <= k < N)%Z -> let d := D k - e (ord k) in
       (1 / 100000000000000 < Rabs d -> e (ord k) = 0) /\
       (Rabs d <= 1 / 100000000000000 -> D k = if Rle_dec d 0 then - (1 / 10000000) else 1 / 10000000)).

(** The largest step from [v] along [d] that keeps all components nonnegative. *)
Definition largest_step (v d : Z -> R) (m : Z) (a : R) : Prop :=
  (forall i, (0 <= i < m)%Z -> 0 <= v i + a * d i) /\
  (forall b, a < b -> exists i, (0 <= i < m)%Z /\ v i + b * d i < 0).

(** The step length: the largest step if that is below 1e10, otherwise 1. *)
Definition step_length (v d : Z -> R) (m : Z) (a : R) : Prop :=
  (largest_step v d m a /\ a < 10000000000) \/
  ((forall i, (0 <= i < m)%Z -> 0 <= v i + 10000000000 * d i) /\ a = 1).

Section Step.
Variable Q : QPdata.
Notation n := (dn Q).
Notation m := (dm Q).
Notation p := (dp Q).

Record vars : Type := mkVars { vx : Z -> R; vy : Z -> R; vz : Z -> R; vs : Z -> R }.

(** The Newton system at [v], its diagonal changed by [e], with complementarity right-hand side [rc]. *)
Record direction (e : Z -> R) (v : vars) (rc : Z -> R) (d : vars) : Prop := mkDirection {
  dir_x : forall j, (0 <= j < n)%Z ->
    Sum n (fun c => dP Q j c * vx d c) + Sum p (fun k => dA Q k j * vy d k) + Sum m (fun i => dG Q i j * vz d i) + e j * vx d j
    = res_dual Q (vx v) (vy v) (vz v) j;
  dir_y : forall k, (0 <= k < p)%Z ->
    Sum n (fun c => dA Q k c * vx d c) + e (n + k)%Z * vy d k = res_eq Q (vx v) k;
  dir_z : forall i, (0 <= i < m)%Z ->
    Sum n (fun c => dG Q i c * vx d c) + vs d i + e (n + p + i)%Z * vz d i = res_in Q (vx v) (vs v) i;
  dir_s : forall i, (0 <= i < m)%Z -> vz v i * vs d i + vs v i * vz d i = rc i
}.

(** Going from [v] along [d] with step lengths [ap] for x, s and [ad] for y, z. *)
Record moves (v d : vars) (ap ad : R) (v' : vars) : Prop := mkMoves {
  mv_x : forall i, (0 <= i < n)%Z -> vx v' i = vx v i + ap * vx d i;
  mv_y : forall i, (0 <= i < p)%Z -> vy v' i = vy v i + ad * vy d i;
  mv_z : forall i, (0 <= i < m)%Z -> vz v' i = vz v i + ad * vz d i;
  mv_s : forall i, (0 <= i < m)%Z -> vs v' i = vs v i + ap * vs d i
}.

(** 0.99 of the step length, at most 1. *)
Definition damped_step (v d : Z -> R) (a : R) : Prop :=
  exists b, step_length v d m b /\ a = Rmin (99 / 100 * b) 1.

(** Expected reduction of complementarity along the predictor [d]. *)
Definition reduction (v d : vars) (ap ad : R) : R :=
  Sum m (fun i => (vs v i + ap * vs d i) * (vz v i + ad * vz d i)) / Sum m (fun i => vs v i * vz v i).

(** The centering parameter and the direction of a step; [sd] is the lower limit of the centering parameter,
    [sg] the current one, [sg'] the next one. *)
Inductive step_direction (e : Z -> R) (sd sg : R) (v d : vars) (sg' : R) : Prop :=
| predictor_corrector (dp : vars) (ap ad : R) :
    sd < sg ->
    direction e v (fun i => - (vs v i * vz v i)) dp ->
    step_length (vs v) (vs dp) m ap -> step_length (vz v) (vz dp) m ad ->
    sg' = Rmax sd (Rmin 1 (reduction v dp ap ad) ^ 3) ->
    direction e v (fun i => - (vs v i * vz v i) - vs dp i * vz dp i + sg' * gap Q (vs v) (vz v)) d ->
    step_direction e sd sg v d sg'
| centering :
    sg <= sd -> sg' = sd ->
    direction e v (fun i => - (vs v i * vz v i) + sd * gap Q (vs v) (vz v)) d ->
    step_direction e sd sg v d sg'.

(** One step of the method from [v] to [v']; [e]: the change regularisation makes to the diagonal. *)
Definition method_step (e : Z -> R) (sd sg : R) (v v' : vars) (ap ad sg' : R) : Prop :=
  exists d, step_direction e sd sg v d sg' /\ damped_step (vs v) (vs d) ap /\ damped_step (vz v) (vz d) ad /\
    moves v d ap ad v'.
End Step.

(** The change regularisation makes to the diagonal at [v] when eliminating in the order [ord]. *)
Definition pivot_change (Q : QPdata) (ord : Z -> Z) (v : vars) (e : Z -> R) : Prop :=
  ((forall a, Rabs (e a) <= 1 / 10000000 + 1 / 100000000000000) /\
   regularised (dn Q + dp Q + dm Q) (kkt_matrix Q (fun i => vs v i / vz v i)) ord e) /\
  (regular_order (dn Q + dp Q + dm Q) (kkt_matrix Q (fun i => vs v i / vz v i)) ord ->
   forall a, (0 <= a < dn Q + dp Q + dm Q)%Z -> e a = 0).

Definition passes_at (Q : QPdata) (rtol atol : R) (v : vars) : Prop := passes Q rtol atol (vx v) (vy v) (vz v) (vs v).

(** [k] steps of the method along the points [V], with centering parameters [sg] and step lengths [ap], [ad]; none
    of the first [k] points passes the stopping test. *)
Definition method_run (Q : QPdata) (ord : Z -> Z) (sd rtol atol : R) (k : nat) (V : nat -> vars) (sg ap ad : nat -> R) : Prop :=
  forall i, (i < k)%nat -> ~ passes_at Q rtol atol (V i) /\
    exists e, pivot_change Q ord (V i) e /\ method_step Q e sd (sg i) (V i) (V (S i)) (ap i) (ad i) (sg (S i)).

Definition interior_vars (Q : QPdata) (v : vars) : Prop := forall i, (0 <= i < dm Q)%Z -> 0 < vs v i /\ 0 < vz v i.

(** ** The starting point *)

(** h - Gx *)
Definition slack (Q : QPdata) (x : Z -> R) (i : Z) : R := dh Q i - Sum (dn Q) (fun j => dG Q i j * x j).

Definition least (f : Z -> R) (k : Z) (a : R) : Prop := (forall i, (0 <= i < k)%Z -> a <= f i) /\ exists i, (0 <= i < k)%Z /\ f i = a.
Definition greatest (f : Z -> R) (k : Z) (a : R) : Prop := (forall i, (0 <= i < k)%Z -> f i <= a) /\ exists i, (0 <= i < k)%Z /\ f i = a.

(** x, y (and a discarded t) solve the KKT system with unit scaling and right-hand side (-c, b, h), its diagonal
    changed by [e]; s is the slack at x, z its negative, each shifted to be at least 1 unless it is positive. *)
Record start_point (Q : QPdata) (e : Z -> R) (v : vars) : Prop := mkStart {
  sp_system : exists t,
    (forall j, (0 <= j < dn Q)%Z -> Sum (dn Q) (fun c => dP Q j c * vx v c) + Sum (dp Q) (fun k => dA Q k j * vy v k) +
       Sum (dm Q) (fun i => dG Q i j * t i) + e j * vx v j = - dc Q j) /\
    (forall k, (0 <= k < dp Q)%Z -> Sum (dn Q) (fun c => dA Q k c * vx v c) + e (dn Q + k)%Z * vy v k = db Q k) /\
    (forall i, (0 <= i < dm Q)%Z -> Sum (dn Q) (fun c => dG Q i c * vx v c) - t i + e (dn Q + dp Q + i)%Z * t i = dh Q i);
  sp_s : exists a, least (slack Q (vx v)) (dm Q) a /\
    forall i, (0 <= i < dm Q)%Z -> vs v i = slack Q (vx v) i + (if Rlt_dec 0 a then 0 else 1 - a);
  sp_z : exists a, greatest (slack Q (vx v)) (dm Q) a /\
    forall i, (0 <= i < dm Q)%Z -> vz v i = - slack Q (vx v) i + (if Rlt_dec a 0 then 0 else 1 + a)
}.

(** The change regularisation makes to the diagonal of that system. *)
Definition start_change (Q : QPdata) (ord : Z -> Z) (e : Z -> R) : Prop :=
  ((forall a, Rabs (e a) <= 1 / 10000000 + 1 / 100000000000000) /\
   regularised (dn Q + dp Q + dm Q) (kkt_matrix Q (fun _ => 1)) ord e) /\
  (regular_order (dn Q + dp Q + dm Q) (kkt_matrix Q (fun _ => 1)) ord ->
   forall a, (0 <= a < dn Q + dp Q + dm Q)%Z -> e a = 0).

(** An order lists every index below N once. *)
Definition order_of (N : Z) (ord : Z -> Z) : Prop :=
  (forall i, (0 <= i < N)%Z -> (0 <= ord i < N)%Z) /\
  (forall i j, (0 <= i < N)%Z -> (0 <= j < N)%Z -> ord i = ord j -> i = j).

(** The same problem, as numbers. *)
Record same_qp (Q Q' : QPdata) : Prop := mkSame {
  sq_n : dn Q = dn Q'; sq_m : dm Q = dm Q'; sq_p : dp Q = dp Q';
  sq_P : forall i j, (0 <= i < dn Q)%Z -> (0 <= j < dn Q)%Z -> dP Q i j = dP Q' i j;
  sq_A : forall i j, (0 <= i < dp Q)%Z -> (0 <= j < dn Q)%Z -> dA Q i j = dA Q' i j;
  sq_G : forall i j, (0 <= i < dm Q)%Z -> (0 <= j < dn Q)%Z -> dG Q i j = dG Q' i j;
  sq_c : forall i, (0 <= i < dn Q)%Z -> dc Q i = dc Q' i;
  sq_b : forall i, (0 <= i < dp Q)%Z -> db Q i = db Q' i;
  sq_h : forall i, (0 <= i < dm Q)%Z -> dh Q i = dh Q' i
}.
