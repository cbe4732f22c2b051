(** The vocabulary in which the properties are stated: what a caller's arrays hold, without any
    reference to how the library works. *)
From Coq Require Import ZArith Reals List Lia Bool.
From Verif Require Import Res Lists.
Import ListNotations.
Open Scope Z_scope.

(** The value of a cell; [d] if the cell is outside the block or was never written. *)
Definition get {T} (d : T) (a : arr T) (i : Z) : T := match rd a i with Ok v => v | _ => d end.

(** The first [n] cells exist and have been written. *)
Definition filled {T} (a : arr T) (n : Z) : Prop := forall i, 0 <= i < n -> exists v, rd a i = Ok v.

(** Compressed-column pattern of an [m] x [n] matrix with [nz] stored entries: pointers start at 0, do
    not decrease and end at [nz]; row indices lie in [0, m).  Rows may be unsorted or repeated. *)
Record csc_pattern (m n : Z) (Jc Ir : arr Z) (nz : Z) : Prop := mkCscPattern {
  cp_first : rd Jc 0 = Ok 0;
  cp_mono : forall j, 0 <= j < n -> exists a b, rd Jc j = Ok a /\ rd Jc (j + 1) = Ok b /\ a <= b;
  cp_last : rd Jc n = Ok nz;
  cp_rows : forall k, 0 <= k < nz -> exists r, rd Ir k = Ok r /\ 0 <= r < m
}.

(** Compressed-column matrix: a pattern and a value for every stored entry. *)
Record csc_arrays {F} (m n : Z) (Jc Ir : arr Z) (Pr : arr F) (nz : Z) : Prop := mkCscArrays {
  ca_pattern : csc_pattern m n Jc Ir nz;
  ca_values : filled Pr nz
}.

(** Rows strictly increase inside every column (hence no duplicates). *)
Definition sorted_columns (n : Z) (Jc Ir : arr Z) : Prop :=
  forall j a b k, 0 <= j < n -> rd Jc j = Ok a -> rd Jc (j + 1) = Ok b -> a <= k -> k + 1 < b ->
    exists r r', rd Ir k = Ok r /\ rd Ir (k + 1) = Ok r' /\ r < r'.

(** Column [j] stores value [v] at row [i]. *)
Definition stored {F} (Jc Ir : arr Z) (Pr : arr F) (i j : Z) (v : F) : Prop :=
  exists a b k, rd Jc j = Ok a /\ rd Jc (j + 1) = Ok b /\ a <= k < b /\ rd Ir k = Ok i /\ rd Pr k = Ok v.

(** Column [j] as the list of its (row, value) pairs in storage order. *)
Definition column {F} (d : F) (Jc Ir : arr Z) (Pr : arr F) (j : Z) : list (Z * F) :=
  map (fun k => (get 0 Ir k, get d Pr k)) (zr (get 0 Jc j) (get 0 Jc (j + 1))).

(** The real matrix held by compressed-column arrays: entry (i, j) is the sum of the stored values. *)
Definition mat_entry (Jc Ir : arr Z) (Pr : arr R) (i j : Z) : R :=
  sumr (fun e => if fst e =? i then snd e else 0%R) (column 0%R Jc Ir Pr j).

(** An array holding a permutation of 0 .. N-1. *)
Record permutation_array (P : arr Z) (N : Z) : Prop := mkPermArr {
  pa_range : forall i, 0 <= i < N -> exists a, rd P i = Ok a /\ 0 <= a < N;
  pa_inj : forall i j a, 0 <= i < N -> 0 <= j < N -> rd P i = Ok a -> rd P j = Ok a -> i = j
}.
