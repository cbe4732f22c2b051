(** Model of dynamic memory: what QP_SETUP, QP_SETUP_dense, QP_CLEANUP, QP_CLEANUP_dense and the functions they call
    allocate, store in the handle, and release.

    This is a second, coarser model of the same functions: only pointers, NULL tests, malloc and free.  The contents of
    numerical arrays are not represented (MSparse.v, MLdl.v, MSolver.v do that).  QP_SOLVE and the functions it calls
    neither allocate nor release memory and do not assign pointers, so they do not appear here. *)
From Coq Require Import ZArith List Bool.
From Verif Require Import Res.
Import ListNotations.
Open Scope Z_scope.

(** ** Memory *)

Inductive value : Type := VPtr (a : Z) | VNull | VInt (z : Z).

(** Structure members, include/Auxilary.h:18-151. *)
Inductive field : Type :=
  | f_options | f_stats | f_A | f_At | f_b | f_P | f_G | f_Gt | f_c | f_h
  | f_x | f_y | f_z | f_s | f_rx | f_ry | f_rz | f_delta | f_delta_x | f_delta_y | f_delta_z | f_delta_s
  | f_ds | f_lambda | f_temp | f_kkt
  | f_jc | f_ir | f_pr
  | f_kktmatrix | f_kb | f_Parent | f_Flag | f_Lnz | f_Li | f_Lp | f_Lti | f_Ltp | f_Pattern | f_UPattern
  | f_Y | f_Lx | f_D | f_Perm | f_Pinv
  | f_AMD_RESULT.
Definition field_eq_dec (a b : field) : {a = b} + {a <> b}. Proof. decide equality. Defined.

(** Local variables and arguments. *)
Inductive var : Type :=
  | v_myQP | v_count | v_z_inter | v_Ap | v_Ai | v_Ax
  | v_Len | v_Pinv | v_Rp | v_Ri | v_S
  | a_Pjc | a_Pir | a_Ppr | a_Ajc | a_Air | a_Apr | a_Gjc | a_Gir | a_Gpr | a_c | a_h | a_b | a_Permut.
Definition var_eq_dec (a b : var) : {a = b} + {a <> b}. Proof. decide equality. Defined.

(** A live block with the members assigned so far; a heap is the list of live blocks. *)
Definition block : Type := list (field * value).
Definition heap : Type := list (Z * block).
Definition addrs (h : heap) : list Z := map fst h.

Inductive event : Type := EMalloc (a : Z) | EFree (a : Z).

Record mem : Type := mkMem { m_heap : heap; m_env : list (var * value); m_log : list event }.

Fixpoint assoc {K V : Type} (dec : forall a b : K, {a = b} + {a <> b}) (k : K) (l : list (K * V)) : option V :=
  match l with
  | [] => None
  | (k', v) :: l => if dec k k' then Some v else assoc dec k l
  end.

(** Replace the entry of an existing key. *)
Fixpoint replace {K V : Type} (dec : forall a b : K, {a = b} + {a <> b}) (k : K) (v : V) (l : list (K * V)) : list (K * V) :=
  match l with
  | [] => []
  | (k', v') :: l => if dec k k' then (k', v) :: l else (k', v') :: replace dec k v l
  end.

Fixpoint remove_key {K V : Type} (dec : forall a b : K, {a = b} + {a <> b}) (k : K) (l : list (K * V)) : list (K * V) :=
  match l with
  | [] => []
  | (k', v') :: l => if dec k k' then l else (k', v') :: remove_key dec k l
  end.

(** ** A small language *)

(** [x->f->g]. *)
Definition path : Type := (var * list field)%type.

Inductive src : Type := SNull | SInt (z : Z) | SPath (p : path).

Inductive prog : Type :=
  | Skip
  | Alloc (p : path) (null_ok : bool)     (* p = malloc(...); null_ok: the block is never dereferenced by this model, NULL is possible *)
  | Free (p : path)                       (* free(p) *)
  | Assign (p : path) (e : src)           (* p = e *)
  | Seq (a b : prog)
  | IfPtr (p : path) (a : prog)           (* if (p) a *)
  | IfNe (p : path) (z : Z) (a : prog).   (* if (p != z) a *)

(** The value stored along a path; dereferencing anything but a live block, or reading a member that was never
    assigned, is undefined. *)
Definition deref_block (h : heap) (v : value) : res block :=
  match v with
  | VPtr a => match assoc Z.eq_dec a h with Some b => Ok b | None => Ub Undef end
  | VNull => Ub NullPtr
  | VInt _ => Ub Undef
  end.

Fixpoint follow (h : heap) (v : value) (l : list field) : res value :=
  match l with
  | [] => Ok v
  | f :: l =>
      bind (deref_block h v) (fun b =>
      match assoc field_eq_dec f b with
      | Some w => follow h w l
      | None => Ub Uninit
      end)
  end.

Definition load (s : mem) (p : path) : res value :=
  match assoc var_eq_dec (fst p) (m_env s) with
  | Some v => follow (m_heap s) v (snd p)
  | None => Ub Uninit
  end.

(** Assignment to a path: a variable, or a member of a live block. *)
Definition store (s : mem) (p : path) (v : value) : res mem :=
  match rev (snd p) with
  | [] => Ok (mkMem (m_heap s) ((fst p, v) :: m_env s) (m_log s))
  | f :: l =>
      bind (load s (fst p, rev l)) (fun w =>
      match w with
      | VPtr a =>
          bind (deref_block (m_heap s) w) (fun b =>
          Ok (mkMem (replace Z.eq_dec a ((f, v) :: b) (m_heap s)) (m_env s) (m_log s)))
      | VNull => Ub NullPtr
      | VInt _ => Ub Undef
      end)
  end.

(** What malloc returns: given the live blocks and whether NULL is acceptable here, a new address or NULL. *)
Definition allocator : Type := list event -> heap -> bool -> value.
Definition allocator_ok (al : allocator) : Prop := forall log h null_ok,
  match al log h null_ok with
  | VPtr a => ~ In a (addrs h)
  | VNull => null_ok = true
  | VInt _ => False
  end.

Fixpoint exec (al : allocator) (c : prog) (s : mem) : res mem :=
  match c with
  | Skip => Ok s
  | Alloc p null_ok =>
      match al (m_log s) (m_heap s) null_ok with
      | VPtr a => store (mkMem ((a, []) :: m_heap s) (m_env s) (EMalloc a :: m_log s)) p (VPtr a)
      | v => store s p v
      end
  | Free p =>
      bind (load s p) (fun v =>
      match v with
      | VPtr a =>
          match assoc Z.eq_dec a (m_heap s) with
          | Some _ => Ok (mkMem (remove_key Z.eq_dec a (m_heap s)) (m_env s) (EFree a :: m_log s))
          | None => Ub Undef    (* not a live block: double free or invalid pointer *)
          end
      | VNull => Ok s
      | VInt _ => Ub Undef
      end)
  | Assign p e =>
      bind (match e with SNull => Ok VNull | SInt z => Ok (VInt z) | SPath q => load s q end) (fun v => store s p v)
  | Seq a b => bind (exec al a s) (exec al b)
  | IfPtr p a =>
      bind (load s p) (fun v =>
      match v with
      | VPtr _ => exec al a s
      | VNull => Ok s
      | VInt _ => Ub Undef
      end)
  | IfNe p z a =>
      bind (load s p) (fun v =>
      match v with
      | VInt k => if k =? z then Ok s else exec al a s
      | _ => Ub Undef
      end)
  end.

(** ** The library *)

Definition seq (l : list prog) : prog := fold_right Seq Skip l.
Definition QP (l : list field) : path := (v_myQP, l).
Definition loc (v : var) : path := (v, []).
Definition new (p : path) : prog := Alloc p false.       (* a structure *)
Definition array (p : path) : prog := Alloc p true.      (* an array *)

(** SparseMatrixSetup, src/Auxilary.c:660-669 (the pointer members). *)
Definition h_SparseMatrixSetup (jc ir pr : path) (M : list field) : prog :=
  seq [Assign (QP (M ++ [f_ir])) (SPath ir); Assign (QP (M ++ [f_jc])) (SPath jc); Assign (QP (M ++ [f_pr])) (SPath pr)].

(** SparseMatrixTranspose, src/Auxilary.c:901-951, and Transpose_Row_Count, lines 683-732: the counter array. *)
Definition h_count : prog := seq [array (loc v_count); Free (loc v_count)].

(** src/qpSWIFT.c:117-122 (A and At), 125-130 (G and Gt); dense 339-344, 347-352. *)
Definition h_transpose (T : field) : prog :=
  seq [new (QP [T]); array (QP [T; f_jc]); array (QP [T; f_ir]); array (QP [T; f_pr]);
       h_SparseMatrixSetup (QP [T; f_jc]) (QP [T; f_ir]) (QP [T; f_pr]) [T]; h_count].

(** densetosparse, src/Auxilary.c:1154-1206, and densetosparse_ROWMAJOR, lines 1219-1273. *)
Definition h_densetosparse (M : field) : prog :=
  seq [array (loc v_Ap); array (loc v_Ai); array (loc v_Ax);
       Assign (QP [M; f_ir]) (SPath (loc v_Ai)); Assign (QP [M; f_jc]) (SPath (loc v_Ap)); Assign (QP [M; f_pr]) (SPath (loc v_Ax))].

(** ldlinitialsolve, src/Auxilary.c:586-609. *)
Definition h_ldlinitialsolve : prog :=
  seq [array (QP [f_kkt; f_Y]); array (QP [f_kkt; f_D]); array (QP [f_kkt; f_Lp]); array (QP [f_kkt; f_Parent]);
       array (QP [f_kkt; f_Pattern]); array (QP [f_kkt; f_Flag]); array (QP [f_kkt; f_Lnz]);
       array (QP [f_kkt; f_Li]); array (QP [f_kkt; f_Lx]); array (QP [f_kkt; f_Lti]); array (QP [f_kkt; f_Ltp]); h_count].

(** kkt_initialize, src/Auxilary.c:992-1089. *)
Definition h_kkt_initialize : prog := seq [array (loc v_z_inter); h_ldlinitialsolve; Free (loc v_z_inter)].

(** Everything the environment decides inside AMD_order: are the arguments rejected before any allocation, does each
    allocation succeed, is the matrix jumbled, does the size computation overflow. *)
Record amd_choice : Type := mkAmdChoice {
  ac_early : option Z;              (* the code returned before any allocation, if so *)
  ac_jumbled : bool;
  ac_Len : bool; ac_Pinv : bool; ac_Rp : bool; ac_Ri : bool; ac_S : bool   (* S: false also when the size overflows *)
}.

(** amd_malloc: NULL when it fails. *)
Definition amd_malloc (v : var) (ok : bool) : prog := if ok then new (loc v) else Assign (loc v) SNull.

(** AMD_order, src/amd_order.c:21-199: the program and the returned status. *)
Definition h_AMD_order (k : amd_choice) : prog * Z :=
  match ac_early k with
  | Some r => (Skip, r)                                                           (* lines 52-89 *)
  | None =>
      let p1 := Seq (amd_malloc v_Len (ac_Len k)) (amd_malloc v_Pinv (ac_Pinv k)) in       (* 92-93 *)
      if negb (ac_Len k && ac_Pinv k) then (seq [p1; Free (loc v_Len); Free (loc v_Pinv)], -1)   (* 96-103 *)
      else
        let p2 := if ac_jumbled k then Seq (amd_malloc v_Rp (ac_Rp k)) (amd_malloc v_Ri (ac_Ri k))   (* 109-110 *)
                  else Seq (Assign (loc v_Rp) SNull) (Assign (loc v_Ri) SNull) in              (* 131-132 *)
        if ac_jumbled k && negb (ac_Rp k && ac_Ri k)
        then (seq [p1; p2; Free (loc v_Rp); Free (loc v_Ri); Free (loc v_Len); Free (loc v_Pinv)], -1)   (* 113-122 *)
        else
          let p3 := Seq (Assign (loc v_S) SNull) (if ac_S k then new (loc v_S) else Skip) in   (* 149-164 *)
          if negb (ac_S k)
          then (seq [p1; p2; p3; Free (loc v_Rp); Free (loc v_Ri); Free (loc v_Len); Free (loc v_Pinv)], -1)   (* 166-175 *)
          else (seq [p1; p2; p3; Free (loc v_Rp); Free (loc v_Ri); Free (loc v_Len); Free (loc v_Pinv); Free (loc v_S)],
                if ac_jumbled k then 1 else 0)                                            (* 192-198 *)
  end.

(** The codes AMD_order can return before allocating: AMD_INVALID, AMD_OUT_OF_MEMORY, AMD_OK (n = 0). *)
Definition amd_choice_ok (k : amd_choice) : Prop :=
  match ac_early k with None => True | Some r => r = -2 \/ r = -1 \/ r = 0 end.

(** The rest of both setup functions after the matrices P, G, A are in place: src/qpSWIFT.c:110-233, dense 332-455. *)
Definition h_setup_rest (perm : bool) (k : amd_choice) : prog :=
  seq [Assign (QP [f_c]) (SPath (loc a_c)); Assign (QP [f_h]) (SPath (loc a_h));
       IfPtr (QP [f_A]) (h_transpose f_At);
       h_transpose f_Gt;
       array (QP [f_x]); IfPtr (QP [f_A]) (array (QP [f_y])); array (QP [f_z]); array (QP [f_s]);
       array (QP [f_rx]); IfPtr (QP [f_A]) (array (QP [f_ry])); array (QP [f_rz]);
       array (QP [f_delta]); array (QP [f_delta_x]); IfPtr (QP [f_A]) (array (QP [f_delta_y])); array (QP [f_delta_z]);
       array (QP [f_delta_s]); array (QP [f_ds]); array (QP [f_lambda]); array (QP [f_temp]);
       new (QP [f_kkt]); new (QP [f_kkt; f_kktmatrix]);
       array (QP [f_kkt; f_kktmatrix; f_jc]); array (QP [f_kkt; f_kktmatrix; f_pr]); array (QP [f_kkt; f_kktmatrix; f_ir]);
       h_SparseMatrixSetup (QP [f_kkt; f_kktmatrix; f_jc]) (QP [f_kkt; f_kktmatrix; f_ir]) (QP [f_kkt; f_kktmatrix; f_pr]) [f_kkt; f_kktmatrix];
       array (QP [f_kkt; f_kb]);
       (if perm
        then Seq (Assign (QP [f_kkt; f_Perm]) (SPath (loc a_Permut))) (Assign (QP [f_stats; f_AMD_RESULT]) (SInt (-3)))
        else seq [array (QP [f_kkt; f_Perm]); fst (h_AMD_order k); Assign (QP [f_stats; f_AMD_RESULT]) (SInt (snd (h_AMD_order k)))]);
       array (QP [f_kkt; f_Pinv]); array (QP [f_kkt; f_UPattern]);
       h_kkt_initialize].

(** QP_SETUP, src/qpSWIFT.c:60-234.  [eqs]: the condition of line 91; [perm]: Permut is not NULL. *)
Definition h_QP_SETUP (eqs perm : bool) (k : amd_choice) : prog :=
  seq [new (loc v_myQP); new (QP [f_options]); new (QP [f_stats]);
       (if eqs
        then seq [new (QP [f_A]); Assign (QP [f_b]) (SPath (loc a_b)); h_SparseMatrixSetup (loc a_Ajc) (loc a_Air) (loc a_Apr) [f_A]]
        else seq [Assign (QP [f_A]) SNull; Assign (QP [f_At]) SNull; Assign (QP [f_b]) SNull]);
       new (QP [f_P]); h_SparseMatrixSetup (loc a_Pjc) (loc a_Pir) (loc a_Ppr) [f_P];
       new (QP [f_G]); h_SparseMatrixSetup (loc a_Gjc) (loc a_Gir) (loc a_Gpr) [f_G];
       h_setup_rest perm k].

(** QP_SETUP_dense, src/qpSWIFT.c:260-456. *)
Definition h_QP_SETUP_dense (eqs perm : bool) (k : amd_choice) : prog :=
  seq [new (loc v_myQP); new (QP [f_options]); new (QP [f_stats]);
       (if eqs
        then seq [new (QP [f_A]); Assign (QP [f_b]) (SPath (loc a_b)); h_densetosparse f_A]
        else seq [Assign (QP [f_A]) SNull; Assign (QP [f_At]) SNull; Assign (QP [f_b]) SNull]);
       new (QP [f_P]); h_densetosparse f_P;
       new (QP [f_G]); h_densetosparse f_G;
       h_setup_rest perm k].

(** src/qpSWIFT.c:665-676, dense 758-769. *)
Definition h_free_vectors : prog :=
  seq (map (fun f => Free (QP [f]))
    [f_x; f_z; f_s; f_delta; f_delta_x; f_delta_z; f_delta_s; f_rx; f_rz; f_ds; f_lambda; f_temp]).

(** src/qpSWIFT.c:684-692, dense 784-790. *)
Definition h_free_eq : prog :=
  seq [Free (QP [f_A]); Free (QP [f_At; f_ir]); Free (QP [f_At; f_jc]); Free (QP [f_At; f_pr]); Free (QP [f_At]);
       Free (QP [f_y]); Free (QP [f_delta_y]); Free (QP [f_ry])].

(** src/qpSWIFT.c:694-736, dense 793-838. *)
Definition h_free_rest : prog :=
  seq ([Free (QP [f_Gt; f_ir]); Free (QP [f_Gt; f_jc]); Free (QP [f_Gt; f_pr]); Free (QP [f_Gt]);
        Free (QP [f_kkt; f_kktmatrix; f_ir]); Free (QP [f_kkt; f_kktmatrix; f_jc]); Free (QP [f_kkt; f_kktmatrix; f_pr]);
        Free (QP [f_kkt; f_kktmatrix])] ++
       map (fun f => Free (QP [f_kkt; f]))
         [f_kb; f_Parent; f_Flag; f_Lnz; f_Li; f_Lp; f_Lti; f_Ltp; f_Pattern; f_UPattern; f_Y; f_Lx; f_D; f_Pinv] ++
       [IfNe (QP [f_stats; f_AMD_RESULT]) (-3) (Free (QP [f_kkt; f_Perm]));
        Free (QP [f_kkt]); Free (QP [f_options]); Free (QP [f_stats]); Free (loc v_myQP)]).

(** QP_CLEANUP, src/qpSWIFT.c:661-737. *)
Definition h_QP_CLEANUP : prog :=
  seq [h_free_vectors; Free (QP [f_P]); Free (QP [f_G]); IfPtr (QP [f_A]) h_free_eq; h_free_rest].

(** QP_CLEANUP_dense, src/qpSWIFT.c:754-839. *)
Definition h_QP_CLEANUP_dense : prog :=
  seq [h_free_vectors;
       Free (QP [f_P; f_pr]); Free (QP [f_P; f_jc]); Free (QP [f_P; f_ir]); Free (QP [f_P]);
       Free (QP [f_G; f_pr]); Free (QP [f_G; f_jc]); Free (QP [f_G; f_ir]); Free (QP [f_G]);
       IfPtr (QP [f_A]) (seq [Free (QP [f_A; f_pr]); Free (QP [f_A; f_jc]); Free (QP [f_A; f_ir]); h_free_eq]);
       h_free_rest].
