(** The round trip through the manifest document. *)
From Coq Require Import String Lia ZifyN ZifyBool.
From Verif.Lib Require Import Base Bytes F32 F64.
From Verif.Record Require Import Model Spec Proofs Proofs2.
Local Open Scope string_scope.
Local Open Scope N_scope.

Inductive neq : number -> number -> Prop :=
| neq_same n : neq n n
| neq_int z : (0 <= z)%Z -> neq (NI64 z) (NU64 (Z.to_N z))
| neq_nan x y : f64_nan x = true -> f64_nan y = true -> neq (NF64 x) (NF64 y).
Inductive veq : value -> value -> Prop :=
| veq_null : veq VNull VNull
| veq_bool b : veq (VBool b) (VBool b)
| veq_num n n' : neq n n' -> veq (VNum n) (VNum n')
| veq_str s : veq (VStr s) (VStr s)
| veq_arr l l' : Forall2 veq l l' -> veq (VArr l) (VArr l')
| veq_obj ver r r2 r' : Forall2 (fun a b => fst a = fst b /\ veq (snd a) (snd b)) r r2 -> Permutation r2 r' -> NoDup (map fst r) -> veq (VObj ver r) (VObj ver r')
| veq_handle h : veq (VHandle h) (VHandle h).

Section ValInd.
  Variable P : value -> Prop.
  Hypothesis HNull : P VNull.
  Hypothesis HBool : forall b, P (VBool b).
  Hypothesis HNum : forall n, P (VNum n).
  Hypothesis HStr : forall s, P (VStr s).
  Hypothesis HArr : forall l, Forall P l -> P (VArr l).
  Hypothesis HObj : forall v (r : list (bytes * value)), Forall (fun kv => P (snd kv)) r -> P (VObj v r).
  Hypothesis HHandle : forall h, P (VHandle h).
  Fixpoint value_ind' (v : value) : P v :=
    match v with
    | VNull => HNull | VBool b => HBool b | VNum n => HNum n | VStr s => HStr s | VHandle h => HHandle h
    | VArr l => HArr l ((fix go l : Forall P l := match l with [] => Forall_nil _ | v :: l => Forall_cons v (value_ind' v) (go l) end) l)
    | VObj ver r => HObj ver r ((fix go (r : list (bytes * value)) : Forall (fun kv => P (snd kv)) r := match r with [] => Forall_nil _ | kv :: r => Forall_cons kv (value_ind' (snd kv)) (go r) end) r)
    end.
End ValInd.

Fixpoint de_list (l : list json) : option (list value) :=
  match l with [] => Some [] | x :: l => match de x with Some v => match de_list l with Some vs => Some (v :: vs) | None => None end | None => None end end.
Lemma de_arr l : de (JArr l) = match de_list l with Some vs => Some (VArr vs) | None => None end.
Proof. reflexivity. Qed.
Fixpoint de_map (m : list (bytes * json)) (ver : option version) (h : option bytes) (fs : list (bytes * value)) : option value :=
  match m with
  | [] => close_map ver h fs
  | (k, x) :: m =>
    if beqb k k_version then
      match x with
      | JStr s => match parse_version s with Some v => de_map m (Some v) h fs | None => None end
      | _ => None
      end
    else if beqb k k_handle then
      match x with JStr s => de_map m ver (Some s) fs | _ => None end
    else match de x with Some v => de_map m ver h (put_key k v fs) | None => None end
  end.
Lemma de_obj m : de (JObj m) = de_map m None None [].
Proof. reflexivity. Qed.

Lemma reserved_neq k : is_reserved k = false -> beqb k k_version = false /\ beqb k k_handle = false.
Proof.
  intros H. split; [destruct (beqb_spec k k_version) as [->|]|destruct (beqb_spec k k_handle) as [->|]]; try reflexivity; vm_compute in H; discriminate.
Qed.
Lemma de_map_fields ver h rest : forall l vs fs,
  Forall2 (fun kj kv => fst kj = fst kv /\ de (snd kj) = Some (snd kv)) l vs ->
  Forall (fun kj => is_reserved (fst kj) = false) l ->
  NoDup (map fst (fs ++ vs)) -> de_map (l ++ rest) ver h fs = de_map rest ver h (fs ++ vs).
Proof.
  intros l vs fs F. revert fs. induction F as [|(k, j) (k', v) l vs (E & D) F IH]; intros fs R ND; [now rewrite app_nil_r|].
  cbn [fst snd] in *. subst k'. inversion R as [|? ? R1 R2]; subst. cbn [fst] in R1. cbn [app de_map]. destruct (reserved_neq k R1) as (-> & ->). rewrite D.
  assert (Hk : ~ In k (map fst fs)). { rewrite map_app in ND. cbn in ND. apply NoDup_remove_2 in ND. intros H. apply ND. apply in_or_app. now left. }
  rewrite put_key_new by assumption. rewrite IH; rewrite <- ?app_assoc; [reflexivity|assumption|exact ND].
Qed.
Lemma Forall2_map_l' {A B C} (f : A -> C) (P : C -> B -> Prop) : forall l l', Forall2 (fun a b => P (f a) b) l l' -> Forall2 P (map f l) l'.
Proof. intros l l' H. induction H; cbn; constructor; auto. Qed.

Lemma from_sentinel_none s : ~ is_sentinel s -> from_sentinel s = None.
Proof.
  intros H. unfold from_sentinel, is_sentinel in *.
  destruct (beqb_spec s (str "nan")); [tauto|]. destruct (beqb_spec s (str "inf")); [tauto|]. destruct (beqb_spec s (str "neg_inf")); [tauto|]. reflexivity.
Qed.
Lemma f64_val_mag x : f64_ok x -> f64_mag x = f64_inf_bits -> x = if f64_neg x then f64_neg_inf else f64_inf_bits.
Proof. intros H M. destruct (f64_split x H) as (E & _). rewrite M in E. rewrite E at 1. now destruct (f64_neg x). Qed.
Lemma val_eq_mag x y : f64_val x = f64_val y -> f64_mag x = f64_mag y.
Proof. unfold f64_val. intros H. apply f64_abs_inj. destruct (f64_neg x), (f64_neg y); lia. Qed.
Lemma de_number n : num_ok n -> exists n', de (ser_number n) = Some (VNum n') /\ neq n n'.
Proof.
  intros W. unfold ser_number. destruct n as [v|z|x]; cbn [sentinel].
  - exists (NU64 v). split; [reflexivity|constructor].
  - destruct (Z.ltb_spec z 0); [exists (NI64 z)|exists (NU64 (Z.to_N z))]; (split; [reflexivity|constructor; assumption]).
  - destruct (f64_nan x) eqn:N.
    { exists (NF64 f64_nan_bits). split; [reflexivity|]. constructor; [assumption|reflexivity]. }
    assert (K : forall b : bytes, (b = str "inf" /\ f64_eq x f64_inf_bits = true) \/ (b = str "neg_inf" /\ f64_eq x f64_neg_inf = true) -> exists n', de (JStr b) = Some (VNum n') /\ neq (NF64 x) n').
    { intros b [(-> & E)|(-> & E)].
      - apply f64_eq_iff in E. destruct E as (_ & _ & E). exists (NF64 f64_inf_bits). split; [reflexivity|].
        pose proof (val_eq_mag _ _ E) as M. change (f64_mag f64_inf_bits) with f64_inf_bits in M. rewrite (f64_val_mag x W M) in *. destruct (f64_neg x); [|constructor].
        exfalso. revert E. vm_compute. discriminate.
      - apply f64_eq_iff in E. destruct E as (_ & _ & E). exists (NF64 f64_neg_inf). split; [reflexivity|].
        pose proof (val_eq_mag _ _ E) as M. change (f64_mag f64_neg_inf) with f64_inf_bits in M. rewrite (f64_val_mag x W M) in *. destruct (f64_neg x); [constructor|].
        exfalso. revert E. vm_compute. discriminate. }
    destruct (f64_eq x f64_inf_bits) eqn:E1; [apply K; auto|]. destruct (f64_eq x f64_neg_inf) eqn:E2; [apply K; auto|].
    exists (NF64 x). split; [reflexivity|constructor].
Qed.
Lemma value_ok_arr l : value_ok (VArr l) -> Forall value_ok l.
Proof. induction l as [|v l IH]; intros H; constructor; [apply H|apply IH, H]. Qed.
Lemma value_ok_obj ver r : value_ok (VObj ver r) -> ver_ok ver /\ names_ok (map fst r) /\ Forall (fun kv => value_ok (snd kv)) r.
Proof.
  intros (A & B & C). split; [assumption|split; [assumption|]]. clear B. induction r as [|(k, v) r IH]; constructor; [apply C|apply IH, C].
Qed.
Definition ord_ok (ord : list (bytes * json) -> list (bytes * json)) : Prop := forall l, Permutation (ord l) l.
Lemma de_ser ord : ord_ok ord -> forall v, value_ok v -> exists v', de (ser ord v) = Some v' /\ veq v v'.
Proof.
  intros O. induction v as [|b|n|s|l IH|ver r IH|h] using value_ind'; intros W.
  - exists VNull. split; [reflexivity|constructor].
  - exists (VBool b). split; [reflexivity|constructor].
  - destruct (de_number n W) as (n' & E & Q). exists (VNum n'). split; [exact E|now constructor].
  - exists (VStr s). cbn [ser de]. rewrite from_sentinel_none by exact W. split; [reflexivity|constructor].
  - apply value_ok_arr in W. cbn [ser]. rewrite de_arr.
    enough (exists l', de_list (map (ser ord) l) = Some l' /\ Forall2 veq l l') as (l' & -> & F) by (exists (VArr l'); split; [reflexivity|now constructor]).
    induction l as [|v l IHl]; [exists []; split; [reflexivity|constructor]|]. inversion IH as [|? ? I1 I2]; subst. inversion W as [|? ? W1 W2]; subst.
    destruct (I1 W1) as (v' & E & Q). destruct (IHl I2 W2) as (l' & E' & F). exists (v' :: l'). cbn [map de_list]. rewrite E, E'. split; [reflexivity|now constructor].
  - apply value_ok_obj in W. destruct W as (V & (ND & NR) & W). cbn [ser]. rewrite de_obj. set (f := fun kv : bytes * value => (fst kv, ser ord (snd kv))).
    assert (R2 : exists r2, Forall2 (fun a b => fst a = fst b /\ veq (snd a) (snd b)) r r2 /\ Forall2 (fun kj kv => fst kj = fst kv /\ de (snd kj) = Some (snd kv)) (map f r) r2).
    { clear ND NR. induction r as [|(k, v) r IHr]; [exists []; split; constructor|]. inversion IH as [|? ? I1 I2]; subst. inversion W as [|? ? W1 W2]; subst. cbn [snd] in *.
      destruct (I1 W1) as (v' & E & Q). destruct (IHr I2 W2) as (r2 & F1 & F2). exists ((k, v') :: r2). split; constructor; cbn; auto. }
    destruct R2 as (r2 & F1 & F2).
    destruct (Permutation_Forall2 (Permutation_sym (O (map f r))) F2) as (r' & P & F3).
    assert (K2 : map fst r2 = map fst r). { clear - F1. induction F1 as [|a b ? ? (E & _) ? IH]; cbn; congruence. }
    assert (ND' : NoDup (map fst r')) by (apply (Permutation_NoDup (Permutation_map fst P)); now rewrite K2).
    rewrite (de_map_fields None None [(k_version, JStr (show_version ver))] _ r' [] F3).
    + cbn [app de_map]. rewrite beqb_refl, parse_show by assumption. exists (VObj ver r'). split; [reflexivity|]. now apply (veq_obj ver r r2).
    + apply Forall_forall. intros (k, j) Hk. apply (Permutation_in _ (O _)) in Hk. apply in_map_iff in Hk. destruct Hk as ((k2, v) & [= <- <-] & Hk). cbn [fst].
      rewrite Forall_forall in NR. apply NR. apply in_map_iff. now exists (k2, v).
    + exact ND'.
  - exists (VHandle h). split; [reflexivity|constructor].
Qed.

(** ** Loading cannot tell the two apart *)
Fixpoint calm (t : ty) (v : value) {struct t} : Prop :=
  match t with
  | TF32 | TF64 => v <> VNum (NI64 i64_max)
  | TOpt t => calm t v
  | TVec t => match v with VArr l => Forall (calm t) l | _ => True end
  | TRec _ fs => match v with
                 | VObj _ r => (fix go fs := match fs with [] => True | (k, t) :: fs => (forall x, lookup k r = Some x -> calm t x) /\ go fs end) fs
                 | _ => True
                 end
  | TEnum _ vs => match v with
                  | VObj _ [(k, x)] => (fix go vs := match vs with [] => True | (k', Some t) :: vs => (beqb k k' = true -> calm t x) /\ go vs | (_, None) :: vs => go vs end) vs
                  | _ => True
                  end
  | _ => True
  end.
Lemma neq_int_same i n n' : neq n n' -> as_int i n = as_int i n'.
Proof.
  intros H. destruct H as [n|z Hz|x y Hx Hy]; [reflexivity| |].
  - unfold as_int. now rewrite Z2N.id.
  - unfold as_int. cbn zeta. replace (f64_eq _ x) with false; [replace (f64_eq _ y) with false; [reflexivity|]|].
    + symmetry. unfold f64_eq. rewrite Hy. now rewrite andb_false_r.
    + symmetry. unfold f64_eq. rewrite Hx. now rewrite andb_false_r.
Qed.
Lemma trunc_range lo hi x : (lo <= hi)%Z -> f64_nan x = false -> (trunc_sat lo hi x = Z.max lo (Z.min hi (Z.quot (f64_val x) f64_unit)))%Z.
Proof. intros _ N. unfold trunc_sat. now rewrite N. Qed.
Definition same_num {A} (c : A -> A) (a b : option A) : Prop := match a, b with Some x, Some y => c x = c y | None, None => True | _, _ => False end.
Lemma sat_same z c v : (0 <= z < i64_max)%Z -> (0 <= v)%Z -> f64_nan c = false -> f64_val c = (v * f64_unit)%Z ->
  (trunc_sat i64_min i64_max c =? z)%Z = (trunc_sat 0 18446744073709551615 c =? z)%Z.
Proof.
  intros B B2 N V. rewrite !(trunc_sat_val _ _ _ _ N V). unfold i64_min, i64_max in *. lia.
Qed.
Lemma neq_f64 n n' : neq n n' -> num_ok n -> n <> NI64 i64_max -> same_num (fun x => if f64_nan x then f64_nan_bits else x) (as_f64 n) (as_f64 n').
Proof.
  intros H W M. destruct H as [n|z Hz|x y Hx Hy].
  - destruct (as_f64 n); [reflexivity|exact I].
  - cbn [num_ok] in W. assert (z <> i64_max) by congruence. unfold as_f64. cbn zeta. rewrite f64_of_N_Z, Z2N.id by assumption.
    assert (B : (- Z.of_N two64 < z < Z.of_N two64)%Z) by (unfold two64, i64_min, i64_max in *; lia). destruct (f64_of_Z_spec z B) as (N & V).
    assert (0 <= rz z)%Z by (unfold rz; destruct (Z.ltb_spec z 0); lia). rewrite (sat_same z _ _ ltac:(lia) ltac:(eassumption) N V). destruct (_ =? z)%Z; [reflexivity|exact I].
  - unfold as_f64. rewrite Hx, Hy. cbn. now rewrite Hx, Hy.
Qed.
Lemma neq_f32 n n' : neq n n' -> num_ok n -> n <> NI64 i64_max -> same_num (fun x => if is_nan x then f32_nan else x) (as_f32 n) (as_f32 n').
Proof.
  intros H W M. destruct H as [n|z Hz|x y Hx Hy].
  - destruct (as_f32 n); [reflexivity|exact I].
  - cbn [num_ok] in W. assert (z <> i64_max) by congruence. unfold as_f32. cbn zeta. rewrite f32_of_N_Z, Z2N.id by assumption.
    assert (B : (- Z.of_N two64 < z < Z.of_N two64)%Z) by (unfold two64, i64_min, i64_max in *; lia). destruct (f32_of_Z_spec z B) as (_ & N & V). rewrite <- f32_nan_widen in N.
    assert (0 <= rz32 z)%Z by (unfold rz32; destruct (Z.ltb_spec z 0); lia). rewrite (sat_same z _ _ ltac:(lia) ltac:(eassumption) N V). destruct (_ =? z)%Z; [reflexivity|exact I].
  - unfold as_f32. rewrite Hx, Hy. cbn. now rewrite (narrow_nan x), (narrow_nan y).
Qed.
Lemma same_refl r : same_result r r.
Proof. destruct r; reflexivity. Qed.
Lemma rmap_same f r r' : (forall d d', same d d' -> same (f d) (f d')) -> same_result r r' -> same_result (rmap f r) (rmap f r').
Proof. intros H. destruct r, r'; cbn; auto; try contradiction. Qed.
Lemma lookup_F2 k : forall r r2, Forall2 (fun a b => fst a = fst b /\ veq (snd a) (snd b)) r r2 ->
  match lookup k r, lookup k r2 with Some v, Some v' => veq v v' | None, None => True | _, _ => False end.
Proof.
  intros r r2 H. induction H as [|(k1, v1) (k2, v2) r r2 (E & Q) F IH]; cbn [lookup]; [exact I|]. cbn [fst snd] in *. subst k2. destruct (beqb k k1); assumption.
Qed.
Lemma value_ok_lookup ver r k x : value_ok (VObj ver r) -> lookup k r = Some x -> value_ok x.
Proof. intros H L. apply value_ok_obj in H. destruct H as (_ & _ & H). rewrite Forall_forall in H. apply lookup_in in L. exact (H _ L). Qed.
Definition calm_fields (r : list (bytes * value)) : list (bytes * ty) -> Prop :=
  fix go fs := match fs with [] => True | (k, t) :: fs => (forall x, lookup k r = Some x -> calm t x) /\ go fs end.
Definition calm_var (k : bytes) (x : value) : list (bytes * option ty) -> Prop :=
  fix go vs := match vs with [] => True | (k', Some t) :: vs => (beqb k k' = true -> calm t x) /\ go vs | (_, None) :: vs => go vs end.
Definition same_list (a b : result (list dat)) : Prop := match a, b with Ok l, Ok l' => map canon l = map canon l' | Err e, Err e' => e = e' | _, _ => False end.
Lemma load_same : forall t v v', value_ok v -> calm t v -> veq v v' -> same_result (load t v) (load t v').
Proof.
  induction t as [i|i| | | | | |t IHt|t IHt|ver fs IHf|ver vs IHv] using ty_ind'; intros v v' W C Q.
  - destruct Q; try apply same_refl. cbn [load load_num]. rewrite (neq_int_same i n n' H). apply same_refl.
  - destruct Q; try apply same_refl. cbn [load load_num]. rewrite (neq_int_same i n n' H). apply same_refl.
  - destruct Q; try apply same_refl. cbn [load load_num]. cbn [calm] in C. assert (M : n <> NI64 i64_max) by congruence. pose proof (neq_f32 n n' H W M) as K.
    destruct (as_f32 n), (as_f32 n'); cbn in *; try contradiction; [unfold same; cbn; now rewrite K|reflexivity].
  - destruct Q; try apply same_refl. cbn [load load_num]. cbn [calm] in C. assert (M : n <> NI64 i64_max) by congruence. pose proof (neq_f64 n n' H W M) as K.
    destruct (as_f64 n), (as_f64 n'); cbn in *; try contradiction; [unfold same; cbn; now rewrite K|reflexivity].
  - destruct Q; apply same_refl.
  - destruct Q; apply same_refl.
  - destruct Q; apply same_refl.
  - cbn [calm] in C. assert (K : v = VNull /\ v' = VNull \/ v <> VNull /\ v' <> VNull) by (destruct Q; [left; now split|right; split; discriminate..]).
    destruct K as [(-> & ->)|(K & K')]; [apply same_refl|]. rewrite !nonull_opt by assumption. apply rmap_same; [|now apply IHt]. intros d d' S. unfold same in *. cbn. now rewrite S.
  - destruct Q; try apply same_refl. rewrite !load_vec. cbn [calm] in C. apply value_ok_arr in W.
    assert (K : same_list (load_list t l) (load_list t l')).
    { induction H as [|x x' l l' Qx F IH]; [reflexivity|]. inversion W as [|? ? W1 W2]; subst. inversion C as [|? ? C1 C2]; subst. rewrite !load_list_cons.
      pose proof (IHt x x' W1 C1 Qx) as S. destruct (load t x), (load t x'); cbn in S; try contradiction; [|exact S].
      specialize (IH W2 C2). destruct (load_list t l), (load_list t l'); cbn in *; try contradiction; [f_equal; assumption|assumption]. }
    destruct (load_list t l), (load_list t l'); cbn in *; try contradiction; [unfold same; cbn; now rewrite K|assumption].
  - destruct Q; try apply same_refl. rewrite !load_rec. destruct (version_eqb ver0 ver); [|apply same_refl].
    assert (K : same_list (load_fields r fs) (load_fields r' fs)).
    { change (calm_fields r fs) in C. assert (K2 : map fst r2 = map fst r) by (clear - H; induction H as [|a b ? ? (E & _) ? IH]; cbn; congruence).
      clear - IHf C W H H0 H1 K2. induction fs as [|(k, t) fs IH]; [reflexivity|]. inversion IHf as [|? ? I1 I2]; subst. destruct C as (C1 & C2). rewrite !load_fields_cons.
      assert (L : lookup k r' = lookup k r2). { symmetry. apply lookup_perm; [now rewrite K2|assumption]. } rewrite L.
      pose proof (lookup_F2 k r r2 H) as F. destruct (lookup k r) as [x|] eqn:E, (lookup k r2) as [x'|] eqn:E'; try contradiction; [|reflexivity].
      cbn [snd] in I1. pose proof (I1 x x' (value_ok_lookup _ _ _ _ W E) (C1 x eq_refl) F) as S. destruct (load t x), (load t x'); cbn in S; try contradiction; [|exact S].
      specialize (IH I2 C2). destruct (load_fields r fs), (load_fields r' fs); cbn in *; try contradiction; [f_equal; assumption|assumption]. }
    destruct (load_fields r fs), (load_fields r' fs); cbn in *; try contradiction; [unfold same; cbn; now rewrite K|assumption].
  - destruct Q; try apply same_refl. rewrite !load_enum. destruct (version_eqb ver0 ver); [|apply same_refl].
    assert (Len : List.length r = List.length r') by (rewrite <- (Permutation_length H0); clear - H; induction H; cbn; congruence).
    destruct r as [|(k, x) [|]], r' as [|(k', x') [|]]; try discriminate; try reflexivity.
    apply Permutation_sym, Permutation_length_1_inv in H0. subst r2. inversion H as [|? ? ? ? (E & F) _]; subst. cbn [fst snd] in *. subst k'.
    change (calm_var k x vs) in C. apply value_ok_obj in W. destruct W as (_ & _ & W). inversion W as [|? ? Wx _]; subst. cbn [snd] in Wx.
    clear - IHv C F Wx. induction vs as [|(k', o) vs IH]; [reflexivity|]. inversion IHv as [|? ? I1 I2]; subst. rewrite !load_var_cons. cbn [snd] in I1.
    destruct (beqb k k') eqn:E.
    + destruct o as [t|]; [|reflexivity]. cbn in C. destruct C as (C1 & _). apply rmap_same; [|apply I1; auto]. intros d d' S. unfold same in *. cbn. now rewrite S.
    + apply IH; [assumption|]. destruct o; apply C.
Qed.
