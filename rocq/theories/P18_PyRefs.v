(** C58: references in the Python interface. *)
From Coq Require Import ZArith List Lia Bool.
From Verif Require Import Res Arith MSparse MSolver MIface P11_Iface MPyRefs.
Import ListNotations.
Open Scope Z_scope.
Open Scope res_scope.

(** ** Specification *)

(** Nothing happened to the objects that existed before. *)
Definition untouched (h h' : pyheap) : Prop := next h <= next h' /\ forall o, o < next h -> cnt h' o = cnt h o /\ kids h' o = kids h o.

(** Of the objects created since [h] exactly those of [l] are alive; each has one reference and owns the references listed. *)
Definition created (h h' : pyheap) (l : list (Z * list Z)) : Prop :=
  NoDup (map fst l) /\
  (forall o ks, In (o, ks) l -> next h <= o < next h' /\ cnt h' o = 1 /\ kids h' o = ks) /\
  (forall o, next h <= o -> ~ In o (map fst l) -> cnt h' o = 0).

(** The objects that make up a result. *)
Definition result_objects (eqs : bool) (output r : Z) (l : list (Z * list Z)) : Prop :=
  if output =? 1 then exists x basic, l = [(r, [x; basic]); (x, []); (basic, [])]
  else if output =? 2 then
    if eqs then exists x basic adv y z s, l = [(r, [x; basic; adv]); (x, []); (basic, []); (adv, [y; z; s]); (y, []); (z, []); (s, [])]
    else exists x basic adv z s, l = [(r, [x; basic; adv]); (x, []); (basic, []); (adv, [z; s]); (z, []); (s, [])]
  else exists x, l = [(r, [x]); (x, [])].

Definition alive (h : pyheap) (o : Z) : Prop := o < next h /\ 0 < cnt h o.

Section Spec.
Variable A : Arith.

(** The argument objects of a call, alive while it runs; nothing beyond [next h] exists yet. *)
Record objects (w : pycall A) (ids : pyids) (h : pyheap) : Prop := mkObjects {
  ob_fresh : forall o, next h <= o -> cnt h o = 0;
  ob_c : alive h (id_c ids); ob_h : alive h (id_h ids); ob_P : alive h (id_P ids); ob_G : alive h (id_G ids);
  ob_A : forall a, py_A w = Some a -> alive h (id_A ids);
  ob_b : forall b, py_b w = Some b -> alive h (id_b ids);
  ob_value : forall d k v, py_opts w = Some d -> d k = Some v -> alive h (id_value ids k)
}.

Definition has_equalities (w : pycall A) : bool := match py_A w, py_b w with Some _, Some _ => true | _, _ => false end.
Definition fits (z : Z) : Prop := - 2 ^ 63 <= z < 2 ^ 63.
(** The level of detail asked for. *)
Definition level (w : pycall A) : Z := match py_opts w with
  | Some d => match d K_OUTPUT with Some (PyInt z) => if (0 <=? z) && (z <? 2 ^ 63) then z else 10 | _ => 10 end
  | None => 10 end.
(** OUTPUT leads to an exception: an integer outside the range of long, or a bad value when warnings are errors. *)
Definition output_trouble (warn : bool) (w : pycall A) : Prop := exists d v, py_opts w = Some d /\ d K_OUTPUT = Some v /\
  ((exists z, v = PyInt z /\ ~ fits z) \/ (warn = true /\ ~ exists z, v = PyInt z /\ 0 <= z /\ fits z)).
End Spec.

(** ** Proof *)

(** The objects created since [h] that are alive in [h'], with counts and owned references. *)
Notation news := (list (Z * (Z * list Z))).
Record owns (h : pyheap) (l : news) (h' : pyheap) : Prop := mkOwns {
  ow_next : next h <= next h';
  ow_old : forall o, o < next h -> cnt h' o = cnt h o /\ kids h' o = kids h o;
  ow_nodup : NoDup (map fst l);
  ow_in : forall o c ks, In (o, (c, ks)) l -> next h <= o < next h' /\ cnt h' o = c /\ kids h' o = ks /\ 0 < c;
  ow_out : forall o, next h <= o -> ~ In o (map fst l) -> cnt h' o = 0;
  ow_pend : pend h' = pend h
}.

Lemma owns_refl h : (forall o, next h <= o -> cnt h o = 0) -> owns h [] h.
Proof. intros H. split; auto; [lia|constructor|intros o c ks []]. Qed.

Lemma owns_bound h l h' o : owns h l h' -> In o (map fst l) -> next h <= o < next h'.
Proof. intros W Hi. apply in_map_iff in Hi. destruct Hi as [[a [c ks]] [E Hi]]. cbn in E. subst a. apply (ow_in _ _ _ W) in Hi. tauto. Qed.

Lemma owns_new h l h' ks : owns h l h' -> owns h ((next h', (1, ks)) :: l) (snd (new_obj ks h')).
Proof.
  intros W. pose proof W as [H1 H2 H3 H4 H5 H6]. split; cbn [new_obj snd cnt kids next pend map fst]; auto; [lia| | | |].
  - intros o Ho. destruct (Z.eqb_spec o (next h')); [lia|]. auto.
  - constructor; auto. intros Hi. apply (owns_bound _ _ _ _ W) in Hi. lia.
  - intros o c k [E|Hi].
    + injection E as <- <- <-. rewrite Z.eqb_refl. repeat split; auto; lia.
    + destruct (H4 o c k Hi) as [B1 [B2 [B3 B4]]]. destruct (Z.eqb_spec o (next h')); [lia|]. repeat split; auto; lia.
  - intros o Ho Hn. destruct (Z.eqb_spec o (next h')) as [->|]; [destruct Hn; left; auto|]. apply H5; auto. intros Hi. apply Hn. right. auto.
Qed.

(** Changing the count of the object at position [k] of the list. *)
Definition recount (l : news) (k : nat) (x : Z * (Z * list Z)) : news := firstn k l ++ x :: skipn (S k) l.
Definition drop (l : news) (k : nat) : news := firstn k l ++ skipn (S k) l.

Lemma at_split (l : news) k o c ks : nth_error l k = Some (o, (c, ks)) ->
  l = firstn k l ++ (o, (c, ks)) :: skipn (S k) l.
Proof.
  revert k. induction l as [|x l IH]; intros [|k] H; try discriminate H; cbn in *; [injection H as ->; reflexivity|]. f_equal. auto.
Qed.

Lemma owns_recount h l h' k o c ks c' : owns h l h' -> nth_error l k = Some (o, (c, ks)) -> 0 < c' ->
  owns h (recount l k (o, (c', ks))) (set_cnt h' o c').
Proof.
  intros W E Hc'. pose proof (at_split l k o c ks E) as EL. unfold recount. set (l1 := firstn k l) in *. set (l2 := skipn (S k) l) in *. clearbody l1 l2. subst l.
  pose proof W as [H1 H2 H3 H4 H5 H6]. assert (Hin : In (o, (c, ks)) (l1 ++ (o, (c, ks)) :: l2)) by (apply in_or_app; right; left; auto).
  destruct (H4 o c ks Hin) as [B1 [B2 [B3 B4]]].
  assert (EM : map fst (l1 ++ (o, (c', ks)) :: l2) = map fst (l1 ++ (o, (c, ks)) :: l2)) by (rewrite !map_app; reflexivity).
  split; rewrite ?EM; cbn [set_cnt cnt kids next pend]; auto.
  - intros a Ha. destruct (Z.eqb_spec a o); [lia|]. auto.
  - intros a ca ka Hi. assert (Hd : In a (map fst (l1 ++ l2)) -> a <> o).
    { intros Hi1 ->. rewrite map_app in H3. cbn [map fst] in H3. apply NoDup_remove_2 in H3. apply H3. rewrite <- map_app. auto. }
    apply in_app_or in Hi. destruct Hi as [Hi|[Hi|Hi]].
    + assert (a <> o) by (apply Hd; apply in_map_iff; exists (a, (ca, ka)); split; auto; apply in_or_app; auto).
      destruct (Z.eqb_spec a o); [contradiction|]. apply H4. apply in_or_app. auto.
    + injection Hi as <- <- <-. rewrite Z.eqb_refl. repeat split; auto; lia.
    + assert (a <> o) by (apply Hd; apply in_map_iff; exists (a, (ca, ka)); split; auto; apply in_or_app; auto).
      destruct (Z.eqb_spec a o); [contradiction|]. apply H4. apply in_or_app. right. right. auto.
  - intros a Ha Hn. destruct (Z.eqb_spec a o) as [->|]; [|auto]. destruct Hn. apply in_map_iff. exists (o, (c, ks)). auto.
Qed.

Lemma owns_drop h l h' k o ks : owns h l h' -> nth_error l k = Some (o, (1, ks)) -> owns h (drop l k) (set_cnt h' o 0).
Proof.
  intros W E. pose proof (at_split l k o 1 ks E) as EL. unfold drop. set (l1 := firstn k l) in *. set (l2 := skipn (S k) l) in *. clearbody l1 l2. subst l.
  pose proof W as [H1 H2 H3 H4 H5 H6]. assert (Hin : In (o, (1, ks)) (l1 ++ (o, (1, ks)) :: l2)) by (apply in_or_app; right; left; auto).
  destruct (H4 o 1 ks Hin) as [B1 [B2 [B3 B4]]].
  assert (Hd : forall a, In a (map fst (l1 ++ l2)) -> a <> o).
  { intros a Hi1 ->. rewrite map_app in H3. cbn [map fst] in H3. apply NoDup_remove_2 in H3. apply H3. rewrite <- map_app. auto. }
  split; cbn [set_cnt cnt kids next pend]; auto.
  - intros a Ha. destruct (Z.eqb_spec a o); [lia|]. auto.
  - rewrite map_app in *. cbn [map fst] in H3. apply NoDup_remove_1 in H3. auto.
  - intros a ca ka Hi. assert (a <> o) by (apply Hd; apply in_map_iff; exists (a, (ca, ka)); split; auto).
    destruct (Z.eqb_spec a o); [contradiction|]. apply H4. apply in_app_or in Hi. apply in_or_app. destruct Hi; auto. right. right. auto.
  - intros a Ha Hn. destruct (Z.eqb_spec a o) as [->|]; [reflexivity|]. apply H5; auto. intros Hi. apply Hn.
    rewrite map_app in *. apply in_app_or in Hi. apply in_or_app. destruct Hi as [Hi|[Hi|Hi]]; auto. cbn in Hi. congruence.
Qed.

Lemma owns_incref h l h' k o c ks : owns h l h' -> nth_error l k = Some (o, (c, ks)) ->
  exists h'', incref o h' = Ok h'' /\ next h'' = next h' /\ owns h (recount l k (o, (c + 1, ks))) h''.
Proof.
  intros W E. destruct (ow_in _ _ _ W o c ks (nth_error_In _ _ E)) as [B1 [B2 [B3 B4]]].
  exists (set_cnt h' o (c + 1)). unfold incref. rewrite B2. destruct (Z.ltb_spec 0 c); [|lia]. split; auto. split; auto.
  eapply owns_recount; eauto. lia.
Qed.

Lemma owns_decref h l h' k o c ks : owns h l h' -> nth_error l k = Some (o, (c, ks)) -> 1 < c ->
  exists h'', decref o h' = Ok h'' /\ next h'' = next h' /\ owns h (recount l k (o, (c - 1, ks))) h''.
Proof.
  intros W E H1c. destruct (ow_in _ _ _ W o c ks (nth_error_In _ _ E)) as [B1 [B2 [B3 B4]]].
  exists (set_cnt h' o (c - 1)). unfold decref, decref_. rewrite B2. destruct (Z.ltb_spec 0 c); [|lia]. cbn [negb].
  destruct (Z.eqb_spec c 1); [lia|]. split; auto. split; auto. eapply owns_recount; eauto. lia.
Qed.

Lemma owns_free h l h' k o : owns h l h' -> nth_error l k = Some (o, (1, [])) ->
  exists h'', decref o h' = Ok h'' /\ next h'' = next h' /\ owns h (drop l k) h''.
Proof.
  intros W E. destruct (ow_in _ _ _ W o 1 [] (nth_error_In _ _ E)) as [B1 [B2 [B3 B4]]].
  exists (set_cnt h' o 0). unfold decref, decref_. rewrite B2, B3. cbn [Z.ltb Z.compare negb Z.eqb Pos.eqb]. split; auto. split; auto.
  eapply owns_drop; eauto.
Qed.

(** An argument and its copy. *)
Lemma owns_getptr contiguous h l h' o : owns h l h' -> o < next h -> 0 < cnt h o ->
  exists a h'', getptr contiguous o h' = Ok (a, h'') /\ owns h ((a, (1, [])) :: l) h''.
Proof.
  intros HW Ho Hc. unfold getptr. destruct (contiguous o).
  - pose proof (owns_new _ _ _ [] HW) as W1. destruct HW as [H1 H2 _ _ _ _]. destruct (H2 o Ho) as [Ec Ek]. unfold incref. rewrite Ec.
    destruct (Z.ltb_spec 0 (cnt h o)); [|lia]. cbn [bind]. unfold new_obj. cbn [set_cnt next cnt kids pend]. unfold decref, decref_. cbn [next cnt kids].
    destruct (Z.eqb_spec o (next h')); [lia|]. rewrite Z.eqb_refl. destruct (Z.ltb_spec 0 (cnt h o + 1)); [|lia]. cbn [negb].
    destruct (Z.eqb_spec (cnt h o + 1) 1); [lia|]. cbn [bind]. do 2 eexists. split; [reflexivity|].
    destruct W1 as [G1 G2 G3 G4 G5 G6]. unfold new_obj in *. cbn [snd next cnt kids pend] in *.
    split; cbn [set_cnt next cnt kids pend]; auto.
    + intros b Hb. destruct (H2 b Hb) as [E1 E2]. destruct (Z.eqb_spec b o) as [->|].
      * destruct (Z.eqb_spec o (next h')); [lia|]. split; auto. lia.
      * destruct (Z.eqb_spec b (next h')); [lia|]. auto.
    + intros b c ks Hi. specialize (G4 b c ks Hi). destruct (Z.eqb_spec b o) as [->|]; [lia|]. exact G4.
    + intros b Hb Hn. specialize (G5 b Hb Hn). destruct (Z.eqb_spec b o) as [->|]; [lia|]. exact G5.
  - pose proof (owns_new _ _ _ [] HW) as W1. cbn [bind]. destruct (new_obj [] h') as [t h1] eqn:E1. cbn [snd] in W1.
    assert (Et : t = next h') by (injection E1 as <- <-; auto). subst t.
    pose proof (owns_new _ _ _ [] W1) as W2. destruct (new_obj [] h1) as [a h2] eqn:E2. cbn [snd] in W2.
    assert (Ea : a = next h1) by (injection E2 as <- <-; auto). subst a.
    destruct (owns_free h _ h2 1 (next h') W2 eq_refl) as [h3 [E3 [_ W3]]].
    rewrite E3. cbn [bind]. do 2 eexists. split; [reflexivity|]. exact W3.
Qed.

(** Giving an old object back the reference that was taken. *)
Lemma take_back o h : 0 < cnt h o -> exists h1, incref o h = Ok h1 /\ cnt h1 o = cnt h o + 1 /\ (forall a, a <> o -> cnt h1 a = cnt h a) /\ kids h1 = kids h /\
  next h1 = next h /\ pend h1 = pend h.
Proof.
  intros H. unfold incref. destruct (Z.ltb_spec 0 (cnt h o)); [|lia]. eexists. split; [reflexivity|]. cbn. rewrite Z.eqb_refl.
  repeat split; auto. intros a Ha. destruct (Z.eqb_spec a o); [contradiction|reflexivity].
Qed.
Lemma give_back o h : 1 < cnt h o -> exists h1, decref o h = Ok h1 /\ cnt h1 o = cnt h o - 1 /\ (forall a, a <> o -> cnt h1 a = cnt h a) /\ kids h1 = kids h /\
  next h1 = next h /\ pend h1 = pend h.
Proof.
  intros H. unfold decref, decref_. destruct (Z.ltb_spec 0 (cnt h o)); [|lia]. destruct (Z.eqb_spec (cnt h o) 1); [lia|]. cbn [negb].
  eexists. split; [reflexivity|]. cbn. rewrite Z.eqb_refl.
  repeat split; auto. intros a Ha. destruct (Z.eqb_spec a o); [contradiction|reflexivity].
Qed.

Lemma new_fst ks h : fst (new_obj ks h) = next h.
Proof. reflexivity. Qed.

(** Position of an object in the list. *)
Ltac pos o l := match l with (o, _) :: _ => constr:(O) | _ :: ?l' => let k := pos o l' in constr:(S k) end.
Ltac apply_alive := match goal with H : _ < _ /\ 0 < _ |- _ => first [exact (proj1 H)|exact (proj2 H)] end.
Ltac s_get W :=
  match goal with |- context [getptr ?c ?o ?h] =>
    let a := fresh "a" in let k := fresh "k" in let E := fresh "E" in let W' := fresh "W" in
    destruct (owns_getptr c _ _ h o W) as [a [k [E W']]]; [apply_alive|apply_alive|]; rewrite E; cbn [bind]; clear E W; rename W' into W end.
Ltac s_new W :=
  match goal with |- context [new_obj ?l ?h] =>
    let a := fresh "a" in let k := fresh "k" in let E := fresh "E" in let F := fresh "F" in
    pose proof (owns_new _ _ h l W) as F; pose proof (new_fst l h) as E; destruct (new_obj l h) as [a k]; cbn [fst snd] in E, F;
    rewrite <- E in F; clear E W; rename F into W; cbn [bind increfs decref_opt] end.
Ltac s_inc W :=
  match goal with |- context [incref ?o ?h] => match type of W with owns ?h0 ?l _ => let i := pos o l in
    let k := fresh "k" in let E := fresh "E" in let W' := fresh "W" in
    destruct (owns_incref h0 l h i o _ _ W eq_refl) as [k [E [_ W']]]; rewrite E; cbn [bind increfs]; clear E W;
    cbn [recount firstn skipn app] in W'; rename W' into W end end.
Ltac s_dec W :=
  match goal with |- context [decref ?o ?h] => match type of W with owns ?h0 ?l _ => let i := pos o l in
    let k := fresh "k" in let E := fresh "E" in let W' := fresh "W" in
    destruct (owns_decref h0 l h i o _ _ W eq_refl) as [k [E [_ W']]]; [lia|]; rewrite E; cbn [bind]; clear E W;
    cbn [recount firstn skipn app] in W'; change (1 + 1 - 1) with 1 in W'; rename W' into W end end.
Ltac s_free W :=
  match goal with |- context [decref ?o ?h] => match type of W with owns ?h0 ?l _ => let i := pos o l in
    let k := fresh "k" in let E := fresh "E" in let W' := fresh "W" in
    destruct (owns_free h0 l h i o W eq_refl) as [k [E [_ W']]]; rewrite E; cbn [bind]; clear E W;
    cbn [drop firstn skipn app] in W'; rename W' into W end end.

Lemma owns_created h l h' : owns h l h' -> (forall o c ks, In (o, (c, ks)) l -> c = 1) -> untouched h h' /\ pend h' = pend h /\
  created h h' (map (fun x => (fst x, snd (snd x))) l).
Proof.
  intros [H1 H2 H3 H4 H5 H6] H. split; [split; auto|]. split; auto. unfold created. rewrite map_map. cbn [fst]. split; [exact H3|]. split; auto.
  intros o ks Hi. apply in_map_iff in Hi. destruct Hi as [[a [c k]] [E Hi]]. cbn in E. injection E as <- <-.
  destruct (H4 a c k Hi) as [B1 [B2 [B3 _]]]. rewrite (H _ _ _ Hi) in B2. auto.
Qed.

Lemma created_perm h h' l l' : created h h' l -> (forall x, In x l <-> In x l') -> NoDup (map fst l') -> created h h' l'.
Proof.
  intros [H1 [H2 H3]] E N. split; auto. split.
  - intros o ks Hi. apply H2. apply E. auto.
  - intros o Ho Hn. apply H3; auto. intros Hi. apply Hn. apply in_map_iff in Hi. destruct Hi as [x [Ex Hi]]. apply in_map_iff. exists x. split; auto.
    apply E. auto.
Qed.

Ltac finish W l0 :=
  do 2 eexists; exists l0; split; [reflexivity|];
  let C := fresh "C" in
  destruct (owns_created _ _ _ W) as [? [? C]]; [intros o' c' ks' Hi'; cbn [In] in Hi'; intuition congruence|];
  cbn [map fst snd] in C; split; [assumption|split; [assumption|split; [|repeat eexists]]];
  apply created_perm with (1 := C); [intros x; cbn [In]; tauto|];
  destruct C as [C _]; cbn [map fst] in C |- *;
  repeat match goal with H : NoDup (_ :: _) |- _ => inversion H; subst; clear H end;
  cbn [In] in *; repeat constructor; cbn [In]; intuition congruence.

(** The part after the checks: everything is given back, and what remains is the result. *)
Lemma solve_refs_ok contiguous ids eqs output h :
  (forall o, next h <= o -> cnt h o = 0) ->
  (id_c ids < next h /\ 0 < cnt h (id_c ids)) -> (id_h ids < next h /\ 0 < cnt h (id_h ids)) ->
  (id_P ids < next h /\ 0 < cnt h (id_P ids)) -> (id_G ids < next h /\ 0 < cnt h (id_G ids)) ->
  (eqs = true -> id_A ids < next h /\ 0 < cnt h (id_A ids)) -> (eqs = true -> id_b ids < next h /\ 0 < cnt h (id_b ids)) ->
  exists r h' l, solve_refs contiguous ids eqs output h = Ok (r, h') /\ untouched h h' /\ pend h' = pend h /\
    created h h' l /\ result_objects eqs output r l.
Proof.
  intros H0 Hc Hh HP HG HA Hb. pose proof (owns_refl h H0) as W. unfold solve_refs.
  s_get W. s_get W. unfold result_objects, build_value. destruct eqs.
  - specialize (HA eq_refl). specialize (Hb eq_refl). s_get W. s_get W. s_get W. s_get W. cbn [bind decref_opt]. s_new W.
    destruct (output =? 1); [|destruct (output =? 2)]; cbn [bind increfs].
    + s_new W. cbn [bind increfs]. s_inc W. s_inc W. s_new W. s_dec W. s_dec W. do 6 s_free W.
      match type of W with owns _ [(?r, _); (?b, _); (?x, _)] _ => finish W [(r, [x; b]); (x, []); (b, [])] end.
    + s_new W. s_new W. s_new W. s_new W. cbn [bind increfs]. do 3 s_inc W. s_new W. do 3 s_inc W. s_new W. do 6 s_dec W. do 6 s_free W.
      match type of W with owns _ [(?r, _); (?a, _); (?s, _); (?z, _); (?y, _); (?b, _); (?x, _)] _ =>
        finish W [(r, [x; b; a]); (x, []); (b, []); (a, [y; z; s]); (y, []); (z, []); (s, [])] end.
    + s_inc W. s_new W. s_dec W. do 6 s_free W.
      match type of W with owns _ [(?r, _); (?x, _)] _ => finish W [(r, [x]); (x, [])] end.
  - cbn [bind]. s_get W. s_get W. cbn [bind decref_opt]. s_new W.
    destruct (output =? 1); [|destruct (output =? 2)]; cbn [bind increfs].
    + s_new W. cbn [bind increfs]. s_inc W. s_inc W. s_new W. s_dec W. s_dec W. do 4 s_free W.
      match type of W with owns _ [(?r, _); (?b, _); (?x, _)] _ => finish W [(r, [x; b]); (x, []); (b, [])] end.
    + s_new W. s_new W. s_new W. cbn [bind increfs]. do 2 s_inc W. s_new W. do 3 s_inc W. s_new W. cbn [bind decref_opt]. do 5 s_dec W. do 4 s_free W.
      match type of W with owns _ [(?r, _); (?a, _); (?s, _); (?z, _); (?b, _); (?x, _)] _ =>
        finish W [(r, [x; b; a]); (x, []); (b, []); (a, [z; s]); (z, []); (s, [])] end.
    + s_inc W. s_new W. s_dec W. do 4 s_free W.
      match type of W with owns _ [(?r, _); (?x, _)] _ => finish W [(r, [x]); (x, [])] end.
Qed.

(** ** The call *)

Section Call.
Variable A : Arith.

Lemma accepts_ok k v : k <> K_OUTPUT -> accepts A k v = true <-> option_ok A k v.
Proof.
  intros Hk. destruct k; try (destruct Hk; reflexivity); destruct v as [z|x|]; cbn [accepts]; try (split; [discriminate|intros H; inversion H]).
  - rewrite andb_true_iff, Z.ltb_lt, Z.ltb_lt. split.
    + intros [H1 H2]. destruct (AsLong_range z ltac:(lia)). constructor. lia.
    + intros H. inversion H; subst. rewrite AsLong_id; lia.
  - rewrite andb_true_iff. unfold one, zero. split; [intros [H1 H2]; constructor; auto|]. intros H; inversion H; auto.
  - rewrite andb_true_iff. unfold one, zero. split; [intros [H1 H2]; constructor; auto|]. intros H; inversion H; auto.
  - unfold one, zero. split; [intros H1; constructor; auto|]. intros H; inversion H; auto.
  - rewrite Z.leb_le. split.
    + intros H1. destruct (AsLong_range z H1). constructor. lia.
    + intros H. inversion H; subst. rewrite AsLong_id; lia.
Qed.

(** Two heaps with the same objects. *)
Record same (h h' : pyheap) : Prop := mkSame {
  sm_cnt : forall o, cnt h' o = cnt h o; sm_kids : kids h' = kids h; sm_next : next h' = next h; sm_pend : pend h' = pend h }.
Lemma same_trans h1 h2 h3 : same h1 h2 -> same h2 h3 -> same h1 h3.
Proof. intros [? ? ? ?] [? ? ? ?]. split; try congruence. Qed.
Lemma same_alive h h' o : same h h' -> alive h o -> alive h' o.
Proof. intros [H1 _ H2 _] [H3 H4]. split; [rewrite H2|rewrite H1]; auto. Qed.

(** One reference more, exception set. *)
Record leaked (h h' : pyheap) (o : Z) : Prop := mkLeaked {
  lk_cnt : cnt h' o = cnt h o + 1; lk_other : forall a, a <> o -> cnt h' a = cnt h a; lk_kids : kids h' = kids h; lk_next : next h' = next h; lk_pend : pend h' = true }.
Lemma same_leaked h1 h2 h3 o : same h1 h2 -> leaked h2 h3 o -> leaked h1 h3 o.
Proof. intros [E1 E2 E3 E4] [G1 G2 G3 G4 G5]. split; [rewrite G1, E1; auto|intros a Ha; rewrite G2, E1; auto|congruence..]. Qed.

Lemma options_refs_ok d ids l : ~ In K_OUTPUT l -> forall h, (forall k v, d k = Some v -> alive h (id_value ids k)) ->
  ((forall k v, In k l -> d k = Some v -> option_ok A k v) /\ exists h', options_refs A d ids l h = Ok (true, h') /\ same h h') \/
  (exists l1 k l2 v h', l = l1 ++ k :: l2 /\ (forall k' v', In k' l1 -> d k' = Some v' -> option_ok A k' v') /\ d k = Some v /\ ~ option_ok A k v /\
     options_refs A d ids l h = Ok (false, h') /\ leaked h h' (id_value ids k)).
Proof.
  induction l as [|k l IH]; intros HO h HV; cbn [options_refs].
  - left. split; [intros k v []|]. exists h. split; auto. split; auto.
  - assert (Hk : k <> K_OUTPUT) by (intros ->; apply HO; left; auto). unfold option_refs. destruct (d k) as [v|] eqn:Ek.
    + destruct (HV k v Ek) as [B1 B2]. destruct (take_back (id_value ids k) h B2) as [h1 [-> [C1 [C2 [C3 [C4 C5]]]]]]. cbn [bind].
      destruct (accepts A k v) eqn:EA.
      * apply accepts_ok in EA; auto. destruct (give_back (id_value ids k) h1 ltac:(lia)) as [h2 [-> [D1 [D2 [D3 [D4 D5]]]]]]. cbn [bind].
        assert (S : same h h2).
        { split; try congruence. intros o. destruct (Z.eq_dec o (id_value ids k)) as [->|]; [lia|]. rewrite D2, C2; auto. }
        destruct (IH (fun H => HO (or_intror H)) h2) as [[I1 [h' [I2 I3]]]|[l1 [k' [l2 [v' [h' [I1 [I2 [I3 [I4 [I5 I6]]]]]]]]]]].
        -- intros k' v' Ek'. eapply same_alive; eauto.
        -- left. split; [|exists h'; split; auto; eapply same_trans; eauto]. intros k' v' [<-|Hi] E; [congruence|eauto].
        -- right. exists (k :: l1), k', l2, v', h'. split; [rewrite I1; reflexivity|]. repeat split; auto.
           { intros k2 v2 [<-|Hi] E; [congruence|eauto]. }
           all: destruct (same_leaked _ _ _ _ S I6); auto.
      * right. exists [], k, l, v, (set_error h1). split; [reflexivity|]. split; [intros k' v' []|]. split; auto.
        split; [intros H; apply accepts_ok in H; auto; congruence|]. split; [reflexivity|]. split; cbn [set_error cnt kids next pend]; auto.
    + cbn [bind]. destruct (IH (fun H => HO (or_intror H)) h HV) as [[I1 [h' [I2 I3]]]|[l1 [k' [l2 [v' [h' [I1 [I2 [I3 [I4 [I5 I6]]]]]]]]]]].
      * left. split; [|eauto]. intros k' v' [<-|Hi] E; [congruence|eauto].
      * right. exists (k :: l1), k', l2, v', h'. split; [rewrite I1; reflexivity|]. repeat split; auto; try apply I6.
        intros k2 v2 [<-|Hi] E; [congruence|eauto].
Qed.

Lemma output_refs_ok warn d ids h : (forall k v, d k = Some v -> alive h (id_value ids k)) ->
  exists h', output_refs A warn d ids h = Ok h' /\ (forall o, cnt h' o = cnt h o) /\ kids h' = kids h /\ next h' = next h /\
    (pend h' = true <-> pend h = true \/ exists v, d K_OUTPUT = Some v /\
      ((exists z, v = PyInt z /\ ~ fits z) \/ (warn = true /\ ~ exists z, v = PyInt z /\ 0 <= z /\ fits z))).
Proof.
  intros HV. unfold output_refs. destruct (d K_OUTPUT) as [v|] eqn:Ek.
  - destruct (HV _ v Ek) as [B1 B2]. destruct (take_back (id_value ids K_OUTPUT) h B2) as [h1 [-> [C1 [C2 [C3 [C4 C5]]]]]]. cbn [bind].
    set (o := id_value ids K_OUTPUT) in *.
    set (h2 := if accepts A K_OUTPUT v then _ else _).
    assert (E2 : cnt h2 = cnt h1 /\ kids h2 = kids h1 /\ next h2 = next h1) by (unfold h2; destruct (accepts A K_OUTPUT v), warn, (overflows A v); auto).
    destruct E2 as [E2 [E3 E4]].
    destruct (give_back o h2) as [h3 [-> [D1 [D2 [D3 [D4 D5]]]]]]; [rewrite E2; lia|].
    exists h3. split; auto. split; [|split; [congruence|split; [congruence|]]].
    + intros a. destruct (Z.eq_dec a o) as [->|]; [rewrite D1, E2; lia|]. rewrite D2, E2, C2; auto.
    + rewrite D5. assert (EP : pend h2 = pend h || overflows A v || (negb (accepts A K_OUTPUT v) && warn)).
      { unfold h2. rewrite <- C5. destruct (accepts A K_OUTPUT v), warn, (overflows A v); cbn; destruct (pend h1); auto. }
      rewrite EP, !orb_true_iff, andb_true_iff, negb_true_iff.
      assert (EO : overflows A v = true <-> exists z, v = PyInt z /\ ~ fits z).
      { unfold overflows, fits. destruct v as [z|x|]; [|split; [discriminate|intros [? [? _]]; discriminate]..].
        rewrite negb_true_iff. split.
        - intros H. exists z. split; auto. intros [H1 H2]. apply Z.leb_le in H1. apply Z.ltb_lt in H2. rewrite H1, H2 in H. discriminate.
        - intros [z' [[= <-] H]]. apply not_true_is_false. rewrite andb_true_iff, Z.leb_le, Z.ltb_lt. tauto. }
      assert (EA : accepts A K_OUTPUT v = false <-> ~ exists z, v = PyInt z /\ 0 <= z /\ fits z).
      { destruct v as [z|x|]; cbn [accepts]; [|split; auto; intros _ [? [? _]]; discriminate..].
        rewrite Z.leb_gt. split.
        - intros H [z' [[= <-] [H1 H2]]]. unfold fits in H2. rewrite AsLong_id in H; lia.
        - intros H. destruct (Z.lt_ge_cases (AsLong z) 0); auto. destruct (AsLong_range z) as [H1 H2]; [lia|]. destruct H. exists z. unfold fits. split; auto. lia. }
      rewrite EO, EA. split.
      * intros [[H|H]|[H1 H2]]; auto; right; exists v; auto.
      * intros [H|[v' [[= <-] [H|[H1 H2]]]]]; auto.
  - exists h. repeat split; auto. intros [H|[v [E _]]]; [auto|discriminate].
Qed.

(** The order in which the options are looked at. *)
Definition option_order : list key := [K_MAXITER; K_ABSTOL; K_RELTOL; K_SIGMA; K_VERBOSE].

Lemma shapes_length w n m p : shapes A w n m p -> has_length A w.
Proof.
  intros [[_ H1] [[_ H2] [_ [_ H3]]]]. unfold has_length. rewrite H1, H2. split; [discriminate|]. split; [discriminate|].
  destruct (py_b w); auto. destruct (py_A w); auto. destruct H3 as [[_ H3] _]. rewrite H3. discriminate.
Qed.

Lemma options_ok_order d : (forall k v, In k option_order -> d k = Some v -> option_ok A k v) -> options_ok A (Some d).
Proof. intros H d' k v [= <-] E. destruct k; try (apply H; auto; cbn; tauto). constructor. Qed.

Lemma level_ok w : options_ok A (py_opts w) ->
  match check_options A (py_opts w) with Accept _ output => output | Raise => 10 end = level A w.
Proof.
  intros H. destruct (C40_options A (py_opts w)) as [H1 _]. destruct (H1 H) as [output E]. rewrite E. unfold level.
  revert E. unfold check_options. destruct (py_opts w) as [d|]; [|intros E; apply (f_equal (fun r => match r with Accept _ o => o | Raise => 0 end)) in E; auto].
  destruct (obind _ _) as [o|]; [|discriminate]. intros E. apply (f_equal (fun r => match r with Accept _ o => o | Raise => 0 end)) in E. rewrite <- E. clear E. destruct (d K_OUTPUT) as [[z|x|]|]; auto.
  destruct (Z.leb_spec 0 (AsLong z)) as [Hz|Hz].
  - destruct (AsLong_range z Hz) as [E1 E2]. rewrite E1 in *. destruct (Z.leb_spec 0 z); [|lia]. destruct (Z.ltb_spec z (2 ^ 63)); [reflexivity|lia].
  - destruct (Z.leb_spec 0 z); auto. destruct (Z.ltb_spec z (2 ^ 63)); auto. rewrite AsLong_id in Hz; lia.
Qed.

Lemma returns_ contiguous warn w ids h dims : objects A w ids h -> check_arrays A w = Ok (Some dims) -> options_ok A (py_opts w) ->
  exists r h' l, method_refs A contiguous warn w ids h = Ok (Some r, h') /\ untouched h h' /\ created h h' l /\
    result_objects (has_equalities A w) (level A w) r l /\ (pend h' = true <-> pend h = true \/ output_trouble A warn w).
Proof.
  intros HB HS HO. unfold method_refs. rewrite HS. cbn [bind].
  rewrite (level_ok w HO).
  assert (EQ : match py_eqs w with Some _ => true | None => false end = has_equalities A w).
  { unfold py_eqs, has_equalities. destruct (py_b w), (py_A w); reflexivity. }
  rewrite EQ.
  assert (HH : exists h1, match py_opts w with
                  | None => Ok (true, h)
                  | Some d => '(go, h) <- options_refs A d ids option_order h ;;
                      if go then h <- output_refs A warn d ids h ;; Ok (true, h) else Ok (false, h)
                  end = Ok (true, h1) /\ (forall o, cnt h1 o = cnt h o) /\ kids h1 = kids h /\ next h1 = next h /\
      (pend h1 = true <-> pend h = true \/ output_trouble A warn w)).
  { unfold output_trouble. destruct (py_opts w) as [d|] eqn:Ed.
    - destruct (options_refs_ok d ids option_order ltac:(cbn; intuition discriminate) h) as [[_ [h1 [-> HS1]]]|[l1 [k [l2 [v [h1 [_ [_ [E1 [E2 _]]]]]]]]]].
      + intros k v E. eapply (ob_value _ _ _ _ HB); eauto.
      + cbn [bind]. destruct (output_refs_ok warn d ids h1) as [h2 [-> [G1 [G2 [G3 G4]]]]].
        { intros k v E. eapply same_alive; eauto. eapply (ob_value _ _ _ _ HB); eauto. }
        exists h2. split; [reflexivity|]. destruct HS1 as [F1 F2 F3 F4]. split; [intros o; rewrite G1; auto|]. split; [congruence|]. split; [congruence|].
        rewrite G4, F4. split; intros [H|H]; auto; right.
        * destruct H as [v [E H]]. exists d, v. auto.
        * destruct H as [d' [v [[= <-] [E H]]]]. exists v. auto.
      + exfalso. apply E2. eapply HO; eauto.
    - exists h. repeat split; auto. intros [H|[d [v [E _]]]]; [auto|discriminate]. }
  destruct HH as [h1 [E1 [G1 [G2 [G3 G4]]]]]. fold option_order. rewrite E1. cbn [bind].
  assert (AL : forall o, alive h o -> o < next h1 /\ 0 < cnt h1 o) by (intros o [B1 B2]; rewrite G3, G1; auto).
  destruct (solve_refs_ok contiguous ids (has_equalities A w) (level A w) h1) as [r [h' [l [E [U [P [C R]]]]]]].
  - intros o Ho. rewrite G1. apply (ob_fresh _ _ _ _ HB). rewrite <- G3. auto.
  - apply AL. apply HB.
  - apply AL. apply HB.
  - apply AL. apply HB.
  - apply AL. apply HB.
  - intros H. apply AL. unfold has_equalities in H. destruct (py_A w) eqn:EA; [|discriminate]. eapply (ob_A _ _ _ _ HB); eauto.
  - intros H. apply AL. unfold has_equalities in H. destruct (py_A w) eqn:EA; [|discriminate]. destruct (py_b w) eqn:Eb; [|discriminate]. eapply (ob_b _ _ _ _ HB); eauto.
  - rewrite E. cbn [bind]. exists r, h', l. split; [reflexivity|]. unfold untouched, created in *. rewrite <- G3. split.
    + split; [apply U|]. intros o Ho. rewrite <- G1, <- G2. apply U; auto.
    + split; [exact C|]. split; auto. rewrite P. auto.
Qed.

(** A call that is accepted returns a new object. Every object that existed before has the references it had; of the
    objects created during the call exactly those reachable from the result are left, with one reference each. *)
Theorem C58_returns contiguous warn w ids h n m p : objects A w ids h -> shapes A w n m p -> options_ok A (py_opts w) ->
  exists r h' l, method_refs A contiguous warn w ids h = Ok (Some r, h') /\ untouched h h' /\ created h h' l /\
    result_objects (has_equalities A w) (level A w) r l /\ (pend h' = true <-> pend h = true \/ output_trouble A warn w).
Proof. intros HB HS HO. apply returns_ with (dims := (n, m, p)); auto. apply C40_shapes; auto. eapply shapes_length; eauto. Qed.

(** Wrong arrays: NULL, an exception, and nothing else. *)
Theorem C58_wrong_arrays contiguous warn w ids h : has_length A w -> (~ exists n m p, shapes A w n m p) ->
  method_refs A contiguous warn w ids h = Ok (None, set_error h).
Proof. intros HL HN. unfold method_refs. rewrite (proj2 (C40_shapes A w HL) HN). reflexivity. Qed.

(** A wrong option: NULL and an exception; the first wrong value keeps a reference, every other count is as before. *)
Theorem C58_wrong_option contiguous warn w ids h n m p : objects A w ids h -> shapes A w n m p -> ~ options_ok A (py_opts w) ->
  exists d l1 k l2 v h', py_opts w = Some d /\ option_order = l1 ++ k :: l2 /\
    (forall k' v', In k' l1 -> d k' = Some v' -> option_ok A k' v') /\ d k = Some v /\ ~ option_ok A k v /\
    method_refs A contiguous warn w ids h = Ok (None, h') /\
    cnt h' (id_value ids k) = cnt h (id_value ids k) + 1 /\ (forall o, o <> id_value ids k -> cnt h' o = cnt h o) /\
    kids h' = kids h /\ next h' = next h /\ pend h' = true.
Proof.
  intros HB HS HO. unfold method_refs. rewrite (proj1 (C40_shapes A w (shapes_length w n m p HS)) n m p HS). cbn [bind]. fold option_order.
  destruct (py_opts w) as [d|] eqn:Ed; [|destruct HO; intros d k v E; discriminate].
  destruct (options_refs_ok d ids option_order ltac:(cbn; intuition discriminate) h) as [[H _]|[l1 [k [l2 [v [h1 [E0 [E3 [E1 [E2 [-> [L1 L2 L3 L4 L5]]]]]]]]]]]].
  - intros k v E. eapply (ob_value _ _ _ _ HB); eauto.
  - destruct HO. apply options_ok_order; auto.
  - cbn [bind]. exists d, l1, k, l2, v, h1. repeat split; auto.
Qed.

(** NULL is returned exactly when the call raises. *)
Theorem C58_null amd contiguous warn w ids h : objects A w ids h -> has_length A w ->
  (method_qpSWIFT A amd w = Ok Exception -> exists h', method_refs A contiguous warn w ids h = Ok (None, h') /\ pend h' = true) /\
  (method_qpSWIFT A amd w <> Ok Exception -> exists r h', method_refs A contiguous warn w ids h = Ok (Some r, h')).
Proof.
  intros HB HL.
  assert (EX : exists d, check_arrays A w = Ok d).
  { unfold check_arrays, dim0. destruct HL as [H1 [H2 H3]]. unfold py_eqs. destruct (pa_dims (py_c w)); [contradiction|].
    destruct (pa_dims (py_h w)); [contradiction|]. cbn [bind]. destruct (py_b w) as [b|]; [|eexists; reflexivity].
    destruct (py_A w); [|eexists; reflexivity]. destruct (pa_dims b); [contradiction|]. eexists. reflexivity. }
  destruct EX as [[dims|] EC].
  2:{ unfold method_qpSWIFT, method_refs. rewrite EC. cbn [bind]. split; [intros _; eexists; split; reflexivity|]. intros H. destruct H. reflexivity. }
  assert (D : options_ok A (py_opts w) \/ ~ options_ok A (py_opts w) /\ exists h', method_refs A contiguous warn w ids h = Ok (None, h') /\ pend h' = true).
  { unfold method_refs. rewrite EC. cbn [bind]. fold option_order. destruct (py_opts w) as [d|] eqn:Ed; [|left; intros d k v E; discriminate].
    destruct (options_refs_ok d ids option_order ltac:(cbn; intuition discriminate) h) as [[H _]|[l1 [k [l2 [v [h1 [E0 [E3 [E1 [E2 [-> [L1 L2 L3 L4 L5]]]]]]]]]]]].
    - intros k v E. eapply (ob_value _ _ _ _ HB); eauto.
    - left. apply options_ok_order; auto.
    - right. split; [intros H; apply E2; eapply H; eauto|]. cbn [bind]. eauto. }
  assert (MQ : method_qpSWIFT A amd w = Ok Exception -> ~ options_ok A (py_opts w)).
  { unfold method_qpSWIFT. rewrite EC. cbn [bind]. destruct dims as [[n m] p]. intros H HO. destruct (proj1 (C40_options A (py_opts w)) HO) as [output E].
    rewrite E in H. destruct (QP_SETUP_dense _ _ _ _ _ _ _ _ _ _ _ _ _) as [q| |]; try discriminate H. cbn [bind] in H.
    destruct (QP_SOLVE _ _) as [[code q']| |]; try discriminate H. cbn [bind] in H.
    destruct (copy A (q_x q') (q_n q')) as [x| |]; try discriminate H. cbn [bind] in H. destruct (output =? 1); [discriminate|]. destruct (output =? 2); [|discriminate].
    destruct (match py_eqs w with Some _ => _ | None => _ end) as [y| |]; try discriminate H. cbn [bind] in H.
    destruct (copy A (q_z q') (q_m q')) as [z| |]; try discriminate H. cbn [bind] in H.
    destruct (copy A (q_s q') (q_m q')) as [sl| |]; try discriminate H. cbn [bind] in H.
    destruct (use _); discriminate H. }
  split.
  - intros H. destruct D as [D|[_ D]]; auto. destruct (MQ H D).
  - intros H. destruct D as [D|[D _]].
    + destruct (returns_ contiguous warn w ids h dims HB EC D) as [r [h' [l [E _]]]]. eauto.
    + destruct H. apply C40_raises; auto.
Qed.
End Call.

(** ** Refutations and a case *)

(** Objects 0 to 11: c, h, P, G, A, b and the six values, with one reference each. *)
Definition demo_ids : pyids := mkPyids 0 1 2 3 4 5
  (fun k => match k with K_MAXITER => 6 | K_ABSTOL => 7 | K_RELTOL => 8 | K_SIGMA => 9 | K_VERBOSE => 10 | K_OUTPUT => 11 end).
Definition demo_heap : pyheap := mkPyheap (fun o => if (0 <=? o) && (o <? 12) then 1 else 0) (fun _ => []) 12 false.

Lemma demo_objects A d : objects A (demo_py A d) demo_ids demo_heap.
Proof.
  split; try (intros; split; cbn; lia).
  - intros o Ho. cbn in *. destruct (Z.leb_spec 0 o), (Z.ltb_spec o 12); cbn; lia.
  - intros d' k v _ _. split; destruct k; cbn; lia.
Qed.

Lemma demo_shapes A d : shapes A (demo_py A d) 3 2 1.
Proof. repeat split. Qed.

(** "A call gives back every reference it takes" is false: a rejected option keeps one. *)
Theorem C58_balanced_refuted : exists (w : pycall FA) ids h h', objects FA w ids h /\ shapes FA w 3 2 1 /\
  method_refs FA (fun _ => true) false w ids h = Ok (None, h') /\ cnt h' (id_value ids K_MAXITER) = cnt h (id_value ids K_MAXITER) + 1.
Proof.
  exists (demo_py FA (Some (demo_opts FA 200))), demo_ids, demo_heap. eexists. split; [apply demo_objects|]. split; [apply demo_shapes|]. split; reflexivity.
Qed.

(** "A call that returns an object leaves no exception pending" is false: OUTPUT = 2^63, and a negative OUTPUT with
    warnings as errors. *)
Definition output_opts (A : Arith) (z : Z) : pydict A := fun k => match k with K_OUTPUT => Some (PyInt z) | _ => None end.
Theorem C58_no_pending_refuted : exists (w : pycall FA) ids h, objects FA w ids h /\ shapes FA w 3 2 1 /\ options_ok FA (py_opts w) /\ pend h = false /\
  exists r h', method_refs FA (fun _ => true) false w ids h = Ok (Some r, h') /\ pend h' = true.
Proof.
  exists (demo_py FA (Some (output_opts FA (2 ^ 63)))), demo_ids, demo_heap. split; [apply demo_objects|]. split; [apply demo_shapes|].
  assert (HO : options_ok FA (py_opts (demo_py FA (Some (output_opts FA (2 ^ 63)))))).
  { intros d k v [= <-] E. destruct k; try discriminate E; constructor. }
  split; [exact HO|]. split; [reflexivity|].
  destruct (C58_returns FA (fun _ => true) false _ demo_ids demo_heap 3 2 1 (demo_objects FA _) (demo_shapes FA _) HO) as [r [h' [l [E [_ [_ [_ HP]]]]]]].
  exists r, h'. split; auto. apply HP. right. exists (output_opts FA (2 ^ 63)), (PyInt (2 ^ 63)). split; auto. split; auto.
  left. exists (2 ^ 63). split; auto. unfold fits. lia.
Qed.

(** What a computation shows of the heap after a call. *)
Definition observe (x : res (option Z * pyheap)) : option (option Z * Z * bool * list (Z * list Z)) :=
  match x with Ok (r, h) => Some (r, next h, pend h, map (fun o => (cnt h o, kids h o)) (map Z.of_nat (seq 12 14))) | _ => None end.
Lemma demo_observe : observe (method_refs FA (fun o => negb (o =? 2)) false (demo_py FA (Some (demo_opts FA 50))) demo_ids demo_heap) =
  Some (Some 25, 26, false, [(0, []); (0, []); (0, []); (0, []); (0, []); (0, []); (0, []); (1, []); (1, []); (1, []); (1, []); (1, []); (1, [21; 22; 23]); (1, [19; 20; 24])]).
Proof. reflexivity. Qed.

(** The demo call with OUTPUT = 2: its hypotheses, and the seven objects that are returned (P not contiguous). *)
Theorem C58_case : let w := demo_py FA (Some (demo_opts FA 50)) in
  objects FA w demo_ids demo_heap /\ shapes FA w 3 2 1 /\ options_ok FA (py_opts w) /\ level FA w = 2 /\ has_equalities FA w = true /\
  exists h', method_refs FA (fun o => negb (o =? 2)) false w demo_ids demo_heap = Ok (Some 25, h') /\ pend h' = false /\
    created demo_heap h' [(25, [19; 20; 24]); (19, []); (20, []); (24, [21; 22; 23]); (21, []); (22, []); (23, [])].
Proof.
  cbv zeta. split; [apply demo_objects|]. split; [apply demo_shapes|].
  assert (HO : options_ok FA (py_opts (demo_py FA (Some (demo_opts FA 50))))).
  { intros d k v [= <-] E. destruct k; try discriminate E; injection E as <-; constructor. lia. }
  split; [exact HO|]. split; [reflexivity|]. split; [reflexivity|].
  pose proof demo_observe as EV.
  destruct (C58_returns FA (fun o => negb (o =? 2)) false _ demo_ids demo_heap 3 2 1 (demo_objects FA _) (demo_shapes FA _) HO) as [r [h' [l [E [_ [HC [_ HP]]]]]]].
  rewrite E in EV. unfold observe in EV. cbn [map seq Z.of_nat Pos.of_succ_nat Pos.succ] in EV. injection EV as -> EN EP EV. exists h'. rewrite E. split; [reflexivity|]. split; [exact EP|].
  destruct HC as [_ [HI HD]]. split; [repeat constructor; cbn; intuition discriminate|]. change (next demo_heap) with 12 in *. rewrite EN in *. split.
  - intros o ks Hi. cbn [In] in Hi.
    repeat match goal with H : _ \/ _ |- _ => destruct H as [H|H] | H : False |- _ => destruct H end; injection Hi as <- <-; repeat split; auto; lia.
  - intros o Ho Hn. destruct (in_dec Z.eq_dec o (map fst l)) as [Hi|Hi]; [|apply HD; auto].
    apply in_map_iff in Hi. destruct Hi as [[o' ks] [Eo Hi]]. cbn in Eo. subst o'. destruct (HI o ks Hi) as [B1 [B2 B3]].
    assert (Hd : o = 12 \/ o = 13 \/ o = 14 \/ o = 15 \/ o = 16 \/ o = 17 \/ o = 18 \/ In o [25; 19; 20; 24; 21; 22; 23]) by (cbn [In]; lia).
    cbn [map fst] in Hn. destruct Hd as [->|[->|[->|[->|[->|[->|[->|Hd]]]]]]]; first [assumption|contradiction].
Qed.

Print Assumptions C58_returns.
Print Assumptions C58_wrong_arrays.
Print Assumptions C58_wrong_option.
Print Assumptions C58_null.
Print Assumptions C58_case.
