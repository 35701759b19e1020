(** Versions, lookups, and the round trip in memory. *)
From Coq Require Import Lia ZifyN ZifyBool.
From Verif.Lib Require Import Base Bytes F32 F64.
From Verif.Record Require Import Model Spec Proofs.
Local Open Scope N_scope.

Lemma beqb_spec a b : reflect (a = b) (beqb a b).
Proof. unfold beqb. destruct (list_eq_dec N.eq_dec a b); now constructor. Qed.
Lemma beqb_refl a : beqb a a = true.
Proof. destruct (beqb_spec a a); congruence. Qed.

(** ** Decimal *)
Definition isdig (c : N) : Prop := 48 <= c < 58.
Lemma digits_dig : forall fuel x c, In c (digits fuel x) -> isdig c.
Proof.
  induction fuel as [|fuel IH]; intros x c H; [destruct H|]. cbn [digits] in H. apply in_app_or in H. destruct H as [H|[<-|[]]].
  - destruct (x <? 10); [destruct H|eauto].
  - pose proof (N.mod_lt x 10 ltac:(discriminate)). unfold isdig. lia.
Qed.
Lemma decimal_dig x c : In c (decimal x) -> isdig c. Proof. apply digits_dig. Qed.
Lemma decimal_nonempty x : exists c s, decimal x = c :: s.
Proof.
  unfold decimal. cbn [digits]. destruct (if x <? 10 then [] else _) as [|c l]; cbn [app]; eauto.
Qed.
Definition dval (acc : N) (l : bytes) : N := fold_left (fun acc d => acc * 10 + (d - 48)) l acc.
Lemma digits_val : forall fuel x, x < 2 ^ N.of_nat fuel -> dval 0 (digits fuel x) = x.
Proof.
  induction fuel as [|fuel IH]; intros x H; [cbn in H; cbn; lia|]. rewrite Nat2N.inj_succ, N.pow_succ_r' in H. cbn [digits].
  unfold dval. rewrite fold_left_app. cbn [fold_left]. fold (dval 0 (if x <? 10 then [] else digits fuel (x / 10))).
  pose proof (N.div_mod x 10 ltac:(discriminate)) as D. pose proof (N.mod_lt x 10 ltac:(discriminate)) as M.
  destruct (N.ltb_spec x 10) as [L|L].
  - rewrite N.mod_small by assumption. change (dval 0 []) with 0. lia.
  - rewrite IH by lia. lia.
Qed.
Lemma decimal_val x : dval 0 (decimal x) = x.
Proof. unfold decimal. apply digits_val. rewrite Nat2N.inj_succ, N2Nat.id. destruct (N.eq_dec x 0) as [->|]; [reflexivity|]. apply N.log2_spec. lia. Qed.
Lemma decimal_inj x y : decimal x = decimal y -> x = y.
Proof. intros H. rewrite <- (decimal_val x), <- (decimal_val y). congruence. Qed.
Lemma dval_ge : forall l acc, acc <= dval acc l.
Proof. induction l as [|d l IH]; intros acc; cbn [dval fold_left]; [lia|]. fold (dval (acc * 10 + (d - 48)) l). specialize (IH (acc * 10 + (d - 48))). lia. Qed.
Lemma parse_digits_val : forall l acc, (forall c, In c l -> isdig c) -> dval acc l < 4294967296 -> parse_digits acc l = Some (dval acc l).
Proof.
  induction l as [|d l IH]; intros acc D H; [reflexivity|]. cbn [parse_digits dval fold_left] in *. fold (dval (acc * 10 + (d - 48)) l) in *.
  assert (G : isdig d) by (apply D; now left). unfold isdig in G. replace ((48 <=? d) && (d <=? 57)) with true by lia.
  cbn zeta. pose proof (dval_ge l (acc * 10 + (d - 48))). replace (acc * 10 + (d - 48) <? 4294967296) with true by lia.
  apply IH; [|assumption]. intros c Hc. apply D. now right.
Qed.
Lemma parse_u32_decimal x : x < 4294967296 -> parse_u32 (decimal x) = Some x.
Proof.
  intros H. unfold parse_u32. pose proof (decimal_dig x) as D. pose proof (decimal_val x) as V. destruct (decimal_nonempty x) as (c & s & E). rewrite E in *.
  assert (isdig c) by (apply D; now left). unfold isdig in *. replace (c =? 43) with false by lia.
  transitivity (parse_digits 0 (c :: s)); [reflexivity|]. rewrite parse_digits_val; [now rewrite V|assumption|lia].
Qed.
Lemma split_at_none c s : ~ In c s -> split_at c s = [s].
Proof.
  induction s as [|x s IH]; intros H; [reflexivity|]. cbn [split_at]. destruct (N.eqb_spec x c) as [->|]; [exfalso; apply H; now left|].
  rewrite IH; [reflexivity|]. intros X. apply H. now right.
Qed.
Lemma split_at_app c a b : ~ In c a -> split_at c (a ++ c :: b) = a :: split_at c b.
Proof.
  induction a as [|x a IH]; intros H; cbn [app split_at].
  - now rewrite N.eqb_refl.
  - destruct (N.eqb_spec x c) as [->|]; [exfalso; apply H; now left|]. rewrite IH; [reflexivity|]. intros X. apply H. now right.
Qed.
Lemma parse_show v : ver_ok v -> parse_version (show_version v) = Some v.
Proof.
  intros (A & B). unfold parse_version, show_version. cbn [app].
  assert (D : forall x, ~ In 46 (decimal x)) by (intros x H; apply decimal_dig in H; unfold isdig in H; lia).
  rewrite split_at_app, split_at_none by apply D. rewrite !parse_u32_decimal by assumption. now destruct v.
Qed.
Lemma version_eqb_spec a b : reflect (a = b) (version_eqb a b).
Proof.
  unfold version_eqb. destruct a as [a1 a2], b as [b1 b2]; cbn. destruct (N.eqb_spec a1 b1), (N.eqb_spec a2 b2); constructor; congruence.
Qed.

(** ** Records *)
Lemma lookup_app {A} k (a b : list (bytes * A)) : lookup k (a ++ b) = match lookup k a with Some v => Some v | None => lookup k b end.
Proof. induction a as [|(k', v) a IH]; cbn [app lookup]; [reflexivity|]. now destruct (beqb k k'). Qed.
Lemma lookup_none {A} k (m : list (bytes * A)) : ~ In k (map fst m) -> lookup k m = None.
Proof.
  induction m as [|(k', v) m IH]; cbn [lookup map fst In]; intros H; [reflexivity|]. destruct (beqb_spec k k') as [->|]; [exfalso; apply H; now left|]. apply IH. tauto.
Qed.
Lemma lookup_in {A} k (m : list (bytes * A)) v : lookup k m = Some v -> In (k, v) m.
Proof.
  induction m as [|(k', v') m IH]; cbn [lookup]; intros H; [discriminate|]. destruct (beqb_spec k k') as [->|]; [injection H as ->; now left|right; auto].
Qed.
Lemma lookup_nodup {A} k (m : list (bytes * A)) v : NoDup (map fst m) -> In (k, v) m -> lookup k m = Some v.
Proof.
  induction m as [|(k', v') m IH]; cbn [lookup map fst]; intros ND H; [destruct H|]. inv ND. destruct (beqb_spec k k') as [->|N].
  - destruct H as [H|H]; [congruence|]. exfalso. apply H2. apply in_map_iff. now exists (k', v).
  - destruct H as [H|H]; [congruence|]. auto.
Qed.
Lemma lookup_perm {A} k (m m' : list (bytes * A)) : NoDup (map fst m) -> Permutation m m' -> lookup k m = lookup k m'.
Proof.
  intros ND P. assert (ND' : NoDup (map fst m')) by (apply (Permutation_NoDup (Permutation_map fst P)); assumption).
  destruct (lookup k m) as [v|] eqn:E.
  - symmetry. apply lookup_nodup; [assumption|]. apply (Permutation_in _ P). now apply lookup_in.
  - destruct (lookup k m') as [v|] eqn:E'; [|reflexivity]. apply lookup_in in E'. apply (Permutation_in _ (Permutation_sym P)) in E'.
    rewrite (lookup_nodup _ _ _ ND E') in E. discriminate.
Qed.
Lemma put_key_new {A} k (v : A) m : ~ In k (map fst m) -> put_key k v m = m ++ [(k, v)].
Proof.
  induction m as [|(k', v') m IH]; cbn [put_key map fst In app]; intros H; [reflexivity|]. destruct (beqb_spec k k') as [->|]; [exfalso; apply H; now left|].
  rewrite IH by tauto. reflexivity.
Qed.
Lemma fold_put_nodup {A} : forall (l r : list (bytes * A)), NoDup (map fst (r ++ l)) -> fold_left (fun r kv => put_key (fst kv) (snd kv) r) l r = r ++ l.
Proof.
  induction l as [|(k, v) l IH]; intros r ND; cbn [fold_left fst snd]; [now rewrite app_nil_r|].
  assert (Hk : ~ In k (map fst r)). { rewrite map_app in ND. cbn in ND. apply NoDup_remove_2 in ND. intros H. apply ND. apply in_or_app. now left. }
  rewrite put_key_new by assumption. rewrite IH; rewrite <- app_assoc; [reflexivity|exact ND].
Qed.
Lemma rec_from_iter_nodup l : NoDup (map fst l) -> rec_from_iter l = l.
Proof. intros H. unfold rec_from_iter. now rewrite fold_put_nodup. Qed.

(** ** Types, one level at a time *)
Definition optP (P : ty -> Prop) (o : option ty) : Prop := match o with Some t => P t | None => True end.
Section TyInd.
  Variable P : ty -> Prop.
  Hypothesis HInt : forall i, P (TInt i).
  Hypothesis HNZ : forall i, P (TNonZero i).
  Hypothesis HF32 : P TF32.
  Hypothesis HF64 : P TF64.
  Hypothesis HBool : P TBool.
  Hypothesis HStr : P TStr.
  Hypothesis HHandle : P THandle.
  Hypothesis HOpt : forall t, P t -> P (TOpt t).
  Hypothesis HVec : forall t, P t -> P (TVec t).
  Hypothesis HRec : forall v fs, Forall (fun kt => P (snd kt)) fs -> P (TRec v fs).
  Hypothesis HEnum : forall v (vs : list (bytes * option ty)), Forall (fun kt => optP P (snd kt)) vs -> P (TEnum v vs).
  Fixpoint ty_ind' (t : ty) : P t :=
    match t with
    | TInt i => HInt i | TNonZero i => HNZ i | TF32 => HF32 | TF64 => HF64 | TBool => HBool | TStr => HStr | THandle => HHandle
    | TOpt t => HOpt t (ty_ind' t)
    | TVec t => HVec t (ty_ind' t)
    | TRec v fs => HRec v fs ((fix go fs : Forall (fun kt => P (snd kt)) fs :=
        match fs with [] => Forall_nil _ | kt :: fs => Forall_cons kt (ty_ind' (snd kt)) (go fs) end) fs)
    | TEnum v vs => HEnum v vs ((fix go (vs : list (bytes * option ty)) : Forall (fun kt => optP P (snd kt)) vs :=
        match vs with [] => Forall_nil _ | kt :: vs => Forall_cons kt (match snd kt as o return optP P o with Some t => ty_ind' t | None => I end) (go vs) end) vs)
    end.
End TyInd.
Fixpoint zip_save (fs : list (bytes * ty)) (l : list dat) : list (bytes * value) :=
  match fs, l with (k, t) :: fs, d :: l => (k, save t d) :: zip_save fs l | _, _ => [] end.
Lemma save_rec ver fs l : save (TRec ver fs) (DRec l) = VObj ver (rec_from_iter (zip_save fs l)).
Proof. reflexivity. Qed.
Definition load_list (t : ty) : list value -> result (list dat) :=
  fix go l := match l with [] => Ok [] | x :: l => match load t x with Ok d => rmap (cons d) (go l) | Err e => Err e end end.
Lemma load_vec t l : load (TVec t) (VArr l) = rmap DVec (load_list t l).
Proof. reflexivity. Qed.
Definition load_fields (r : list (bytes * value)) : list (bytes * ty) -> result (list dat) :=
  fix go fs := match fs with
  | [] => Ok []
  | (k, t) :: fs => match lookup k r with
                    | Some x => match load t x with Ok d => rmap (cons d) (go fs) | Err e => Err e end
                    | None => Err MissingField
                    end
  end.
Lemma load_rec ver fs ver' r : load (TRec ver fs) (VObj ver' r) = if version_eqb ver' ver then rmap DRec (load_fields r fs) else Err UnknownVersion.
Proof. reflexivity. Qed.
Definition save_var (k : bytes) (p : option dat) : list (bytes * option ty) -> value :=
  fix go vs := match vs with
  | [] => VNull
  | (k', t) :: vs => if beqb k k' then match t, p with Some t, Some d => save t d | _, _ => VNull end else go vs
  end.
Lemma save_enum ver vs k p : save (TEnum ver vs) (DVar k p) = VObj ver [(k, save_var k p vs)].
Proof. reflexivity. Qed.
Definition load_var (k : bytes) (x : value) : list (bytes * option ty) -> result dat :=
  fix go vs := match vs with
  | [] => Err UnknownVariant
  | (k', t) :: vs => if beqb k k' then match t with Some t => rmap (fun d => DVar k (Some d)) (load t x) | None => Ok (DVar k None) end else go vs
  end.
Lemma load_enum ver vs ver' r : load (TEnum ver vs) (VObj ver' r) =
  if version_eqb ver' ver then match r with [(k, x)] => load_var k x vs | _ => Err TypeMismatch end else Err UnknownVersion.
Proof. reflexivity. Qed.
Fixpoint fields_ty (fs : list (bytes * ty)) (l : list dat) : Prop :=
  match fs, l with [], [] => True | (_, t) :: fs, d :: l => has_ty t d /\ fields_ty fs l | _, _ => False end.
Lemma has_ty_rec ver fs l : has_ty (TRec ver fs) (DRec l) = fields_ty fs l. Proof. reflexivity. Qed.
Definition var_ty (k : bytes) (p : option dat) : list (bytes * option ty) -> Prop :=
  fix go vs := match vs with
  | [] => False
  | (k', t) :: vs => if beqb k k' then match t, p with Some t, Some d => has_ty t d | None, None => True | _, _ => False end else go vs
  end.
Lemma has_ty_enum ver vs k p : has_ty (TEnum ver vs) (DVar k p) = var_ty k p vs. Proof. reflexivity. Qed.
Lemma ty_ok_rec ver fs : ty_ok (TRec ver fs) -> ver_ok ver /\ names_ok (map fst fs) /\ Forall (fun kt => ty_ok (snd kt)) fs.
Proof.
  intros (A & B & C). split; [assumption|split; [assumption|]]. clear B. induction fs as [|(k, t) fs IH]; constructor; [apply C|apply IH, C].
Qed.
Lemma ty_ok_enum ver vs : ty_ok (TEnum ver vs) -> ver_ok ver /\ names_ok (map fst vs) /\ Forall (fun kt => match snd kt with Some t => ty_ok t | None => True end) vs.
Proof.
  intros (A & B & C). split; [assumption|split; [assumption|]]. clear B. induction vs as [|(k, [t|]) vs IH]; constructor; try apply C; try exact I; apply IH, C.
Qed.
Lemma load_list_cons t x l : load_list t (x :: l) = match load t x with Ok d => rmap (cons d) (load_list t l) | Err e => Err e end. Proof. reflexivity. Qed.
Lemma load_fields_cons r k t fs : load_fields r ((k, t) :: fs) =
  match lookup k r with Some x => match load t x with Ok d => rmap (cons d) (load_fields r fs) | Err e => Err e end | None => Err MissingField end.
Proof. reflexivity. Qed.
Lemma save_var_cons k p k' t vs : save_var k p ((k', t) :: vs) = if beqb k k' then match t, p with Some t, Some d => save t d | _, _ => VNull end else save_var k p vs.
Proof. reflexivity. Qed.
Lemma load_var_cons k x k' t vs : load_var k x ((k', t) :: vs) =
  if beqb k k' then match t with Some t => rmap (fun d => DVar k (Some d)) (load t x) | None => Ok (DVar k None) end else load_var k x vs.
Proof. reflexivity. Qed.
Lemma var_ty_cons k p k' t vs : var_ty k p ((k', t) :: vs) =
  if beqb k k' then match t, p with Some t, Some d => has_ty t d | None, None => True | _, _ => False end else var_ty k p vs.
Proof. reflexivity. Qed.
Lemma zip_keys fs : forall l, fields_ty fs l -> map fst (zip_save fs l) = map fst fs.
Proof. induction fs as [|(k, t) fs IH]; intros [|d l] H; cbn in *; try tauto. f_equal. now apply IH. Qed.
Lemma load_fields_zip r : forall fs l,
  Forall (fun kt => ty_ok (snd kt)) fs ->
  Forall (fun kt => forall d, ty_ok (snd kt) -> has_ty (snd kt) d -> exists d', load (snd kt) (save (snd kt) d) = Ok d' /\ same d d') fs ->
  fields_ty fs l -> (forall k v, In (k, v) (zip_save fs l) -> lookup k r = Some v) ->
  exists l', load_fields r fs = Ok l' /\ map canon l = map canon l'.
Proof.
  induction fs as [|(k, t) fs IH]; intros [|d l] T IHt H L; cbn [fields_ty] in H; try contradiction.
  - exists []. split; reflexivity.
  - inversion T as [|? ? T1 T2]; subst. inversion IHt as [|? ? I1 I2]; subst. cbn [snd] in *. destruct H as (Hd & H). rewrite load_fields_cons. cbn [zip_save] in L.
    rewrite (L k (save t d)) by now left. destruct (I1 d T1 Hd) as (d' & -> & S).
    destruct (IH l T2 I2 H) as (l' & -> & S'). { intros. apply L. now right. }
    exists (d' :: l'). split; [reflexivity|]. cbn [map]. f_equal; assumption.
Qed.
Lemma save_null t d : is_opt t = false -> has_ty t d -> save t d <> VNull.
Proof. destruct t, d; cbn; intros; try discriminate; try tauto. Qed.
Lemma num_of_int_val i z : in_range i z = true -> as_int i (num_of_int i z) = Some z.
Proof.
  intros R. apply as_int_complete; [assumption|]. unfold num_of_int. destruct (signed i) eqn:S; [reflexivity|].
  rewrite Z2N.id; [reflexivity|]. unfold in_range in R. destruct i; try discriminate; cbn in R; lia.
Qed.
Lemma nonull_opt t v : v <> VNull -> load (TOpt t) v = rmap DSome (load t v).
Proof. intros H. destruct v; try reflexivity. congruence. Qed.
Lemma f32_back x : x < 4294967296 -> exists y, as_f32 (NF64 (f32_to_f64 x)) = Some y /\ same (DF32 x) (DF32 y).
Proof.
  intros B. unfold as_f32. rewrite f32_nan_widen. destruct (is_nan x) eqn:N.
  - exists (f64_to_f32 (f32_to_f64 x)). split; [reflexivity|]. unfold same, canon. rewrite N, narrow_nan; [reflexivity|]. now rewrite f32_nan_widen.
  - cbn zeta. rewrite narrow_widen by assumption. exists x. split; [|reflexivity].
    replace (f64_eq (f32_to_f64 x) (f32_to_f64 x)) with true; [reflexivity|]. symmetry. apply f64_eq_iff. now rewrite f32_nan_widen.
Qed.
Lemma f64_back x : as_f64 (NF64 x) = Some x.
Proof. unfold as_f64. destruct (f64_nan x) eqn:N; [reflexivity|]. replace (f64_eq x x) with true; [reflexivity|]. symmetry. now apply f64_eq_iff. Qed.
(** The round trip in memory. *)
Lemma mem_round_trip : forall t d, ty_ok t -> has_ty t d -> exists d', load t (save t d) = Ok d' /\ same d d'.
Proof.
  induction t as [i|i| | | | | |t IHt|t IHt|v fs IHf|v vs IHv] using ty_ind'; intros d TO H.
  - destruct d; try contradiction. exists (DInt z). cbn [has_ty] in H. cbn [save load load_num]. rewrite num_of_int_val by assumption. split; reflexivity.
  - destruct d; try contradiction. exists (DInt z). destruct H as (H & NZ). cbn [save load load_num]. rewrite num_of_int_val by assumption. cbn [or_err].
    destruct (Z.eqb_spec z 0); [contradiction|]. split; reflexivity.
  - destruct d; try contradiction. destruct (f32_back x H) as (y & E & S). exists (DF32 y). cbn [save load load_num]. rewrite E. split; [reflexivity|assumption].
  - destruct d; try contradiction. exists (DF64 x). cbn [save load load_num]. rewrite f64_back. split; reflexivity.
  - destruct d; try contradiction. now exists (DBool b).
  - destruct d; try contradiction. now exists (DStr s).
  - destruct d; try contradiction. now exists (DHandle h).
  - destruct TO as (NO & TO). destruct d; try contradiction.
    + now exists DNone.
    + destruct (IHt d TO H) as (d' & E & S). exists (DSome d'). cbn [save]. rewrite nonull_opt, E by now apply save_null. split; [reflexivity|]. unfold same in *. cbn [canon]. now rewrite S.
  - destruct d; try contradiction. cbn [has_ty] in H. cbn [ty_ok] in TO. cbn [save]. rewrite load_vec.
    enough (exists l', load_list t (map (save t) l) = Ok l' /\ map canon l = map canon l') as (l' & -> & E).
    { exists (DVec l'). split; [reflexivity|]. unfold same. cbn [canon]. now rewrite E. }
    induction H as [|d l Hd H IH]; [now exists []|]. destruct IH as (l' & E' & S'). destruct (IHt d TO Hd) as (d' & E & S).
    exists (d' :: l'). cbn [map]. rewrite load_list_cons, E, E'. split; [reflexivity|]. cbn. f_equal; assumption.
  - destruct d; try contradiction. rewrite has_ty_rec in H. apply ty_ok_rec in TO. destruct TO as (_ & (ND & _) & TO). rewrite save_rec, load_rec.
    destruct (version_eqb_spec v v); [|congruence]. assert (ND' : NoDup (map fst (zip_save fs l))) by now rewrite zip_keys.
    rewrite rec_from_iter_nodup by assumption.
    destruct (load_fields_zip (zip_save fs l) fs l TO) as (l' & -> & E); [|assumption| |].
    + eapply Forall_impl; [|exact IHf]. intros a Ha d. apply Ha.
    + intros k x. now apply lookup_nodup.
    + exists (DRec l'). split; [reflexivity|]. unfold same. cbn [canon]. now rewrite E.
  - destruct d; try contradiction. rewrite has_ty_enum in H. apply ty_ok_enum in TO. destruct TO as (_ & _ & TO). rewrite save_enum, load_enum.
    destruct (version_eqb_spec v v); [|congruence].
    induction vs as [|(k', o) vs IH]; [contradiction|]. inversion IHv as [|? ? I1 I2]; subst. inversion TO as [|? ? T1 T2]; subst. rewrite var_ty_cons in H. rewrite save_var_cons, load_var_cons. cbn [snd] in *.
    destruct (beqb k k') eqn:E; [|now apply IH]. destruct o as [t|], p as [d|]; try contradiction.
    + destruct (I1 d T1 H) as (d' & -> & S). exists (DVar k (Some d')). split; [reflexivity|]. unfold same in *. cbn [canon]. now rewrite S.
    + now exists (DVar k None).
Qed.
