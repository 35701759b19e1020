(** Property theorems about saved records: data round trips (C55), number narrowing (C56) and
    what a load may answer (C57). *)
From Coq Require Import String Lia ZifyN ZifyBool.
From Verif.Lib Require Import Base Bytes F32 F64.
From Verif.Record Require Import Model Spec Proofs Proofs2 Proofs3 Proofs4 Proofs5.
Local Open Scope string_scope.
Local Open Scope N_scope.

(** * C55: what is saved is what is loaded *)
(** A type with every kind of part, and data of it. *)
Definition sample_ty : ty :=
  TRec (mkver 1 2) [(str "dim", TInt U64); (str "alpha", TF32); (str "weights", TVec TF64);
                    (str "metric", TEnum (mkver 0 1) [(str "L2", None); (str "Weighted", Some (TVec TF32))]);
                    (str "name", TOpt TStr); (str "data", THandle); (str "shift", TInt I8); (str "count", TNonZero U32)].
Definition sample_dat : dat :=
  DRec [DInt 18446744073709551615; DF32 f32_inf; DVec [DF64 f64_1_5; DF64 (two63 + f64_nan_bits); DF64 two63];
        DVar (str "Weighted") (Some (DVec [DF32 f32_one])); DSome (DStr (str "x")); DHandle (str "000-x"); DInt (-128); DInt 7].
Lemma sample_ok : ty_ok sample_ty /\ has_ty sample_ty sample_dat /\ plain sample_dat /\ (tdepth sample_ty <= 126)%nat.
Proof.
  split; [|split; [|split]].
  - cbn [ty_ok sample_ty map fst]. unfold names_ok, ver_ok. repeat split; try (cbn; lia).
    1, 3: repeat (constructor; [cbn [In]; intuition discriminate|]); constructor.
    all: repeat constructor.
  - cbn -[N.lt]. repeat split; try reflexivity; try discriminate. all: repeat (constructor; [cbn; reflexivity|]); constructor.
  - cbn. unfold is_sentinel. repeat split. intros [H|[H|H]]; discriminate.
  - vm_compute. repeat constructor.
Qed.

(** In memory: data of any type reads back, up to the payload of NaNs. *)
Theorem C55_memory_round_trip : forall t d, ty_ok t -> has_ty t d ->
  exists d', load t (save t d) = Ok d' /\ same d d'.
Proof. exact mem_round_trip. Qed.
Print Assumptions C55_memory_round_trip.
Example C55_memory_case : ty_ok sample_ty /\ has_ty sample_ty sample_dat /\ load sample_ty (save sample_ty sample_dat) = Ok sample_dat.
Proof. destruct sample_ok as (A & B & _). split; [exact A|split; [exact B|vm_compute; reflexivity]]. Qed.

(** Through the manifest file: for any text layer that reads back what it prints down to some
    depth, and any order in which maps list their entries. *)
Theorem C55_manifest_round_trip : forall (T : Type) (print : json -> T) (parse : T -> option json) limit ord t d,
  text_layer print parse limit -> (forall l, Permutation (ord l) l) ->
  ty_ok t -> has_ty t d -> plain d -> (tdepth t <= limit)%nat ->
  exists j v d', parse (print (ser ord (save t d))) = Some j /\ de j = Some v /\ load t v = Ok d' /\ same d d'.
Proof.
  intros T print parse limit ord t d TL O TO H PL D. destruct (save_ok t d TO H PL) as (VK & CM).
  destruct (de_ser ord O _ VK) as (v' & E & Q). destruct (mem_round_trip t d TO H) as (d1 & L1 & S1).
  pose proof (load_same t _ _ VK CM Q) as LS. rewrite L1 in LS. destruct (load t v') as [d2|] eqn:L2; [|contradiction].
  exists (ser ord (save t d)), v', d2. split; [|split; [exact E|split; [exact L2|]]].
  - apply TL; [now apply ser_printable|]. eapply Nat.le_trans; [now apply save_depth|exact D].
  - unfold same in *. cbn [same_result] in LS. unfold same in LS. congruence.
Qed.
Print Assumptions C55_manifest_round_trip.
(** The hypotheses hold of the sample, of the layer that keeps the document itself and of maps
    listed backwards; the document read back gives the sample. *)
Example C55_manifest_case : text_layer (fun j => j) Some 126 /\ (forall l : list (bytes * json), Permutation (rev l) l) /\
  ty_ok sample_ty /\ has_ty sample_ty sample_dat /\ plain sample_dat /\ (tdepth sample_ty <= 126)%nat /\
  match de (ser (@rev _) (save sample_ty sample_dat)) with Some v => exists d, load sample_ty v = Ok d /\ same sample_dat d | None => False end.
Proof.
  split; [intros j _ _; reflexivity|]. split; [intros l; symmetry; apply Permutation_rev|]. destruct sample_ok as (A & B & C & D). do 4 (split; [assumption|]).
  destruct (de _) as [v|] eqn:E; [|vm_compute in E; discriminate]. vm_compute in E. injection E as <-. eexists. split; vm_compute; reflexivity.
Qed.

(** An option of an option: [Some None] reads back as [None]. *)
Theorem C55_refuted_nested_option : exists t d, has_ty t d /\ load t (save t d) = Ok DNone /\ d = DSome DNone.
Proof. exists (TOpt (TOpt TBool)), (DSome DNone). repeat split. Qed.
Print Assumptions C55_refuted_nested_option.
(** The strings "nan", "inf" and "neg_inf" are saved and then cannot be loaded: the manifest reads
    them as numbers. *)
Theorem C55_refuted_sentinel_string : forall ord s, is_sentinel s ->
  exists v, de (ser ord (save TStr (DStr s))) = Some v /\ load TStr v = Err TypeMismatch.
Proof. intros ord s [-> | [-> | ->]]; eexists; (split; [vm_compute; reflexivity|reflexivity]). Qed.
Print Assumptions C55_refuted_sentinel_string.
Example C55_sentinel_case : is_sentinel (str "inf") /\ has_ty TStr (DStr (str "inf")) /\ load TStr (save TStr (DStr (str "inf"))) = Ok (DStr (str "inf")).
Proof. split; [right; now left|split; [exact I|reflexivity]]. Qed.
(** A record collected from pairs may hold a reserved key; the manifest then does not load, or
    loads without the entry. *)
Theorem C55_refuted_reserved_key :
  let r := rec_from_iter [(str "$handle", VStr (str "f"))] in
  let r' := rec_from_iter [(str "$version", VStr (str "9.9")); (str "n", VBool true)] in
  let v := VObj (mkver 1 0) r in let v' := VObj (mkver 1 0) r' in
  lookup (str "$handle") r = Some (VStr (str "f")) /\ de (ser (fun l => l) v) = None /\
  de (ser (fun l => l) v') = Some (VObj (mkver 1 0) [(str "n", VBool true)]).
Proof. repeat split; vm_compute; reflexivity. Qed.
Print Assumptions C55_refuted_reserved_key.
(** The checked insertion refuses exactly the reserved keys, and otherwise sets the one key. *)
Theorem C55_insert_checks : forall k v r,
  (rec_insert k v r = None <-> exists k', k = 36 :: k') /\
  (forall r', rec_insert k v r = Some r' -> forall k0, lookup k0 r' = if list_eq_dec N.eq_dec k0 k then Some v else lookup k0 r).
Proof.
  intros k v r. split.
  - unfold rec_insert, is_reserved. destruct k as [|c k]; [split; [discriminate|intros (k' & H); discriminate]|]. destruct (N.eqb_spec c 36) as [->|N].
    + split; [eauto|reflexivity].
    + split; [discriminate|]. intros (k' & [= E _]). contradiction.
  - unfold rec_insert. destruct (is_reserved k); [discriminate|]. intros r' [= <-] k0. induction r as [|(k1, v1) r IH].
    + cbn [put_key lookup]. unfold beqb. now destruct (list_eq_dec N.eq_dec k0 k).
    + cbn [put_key]. destruct (beqb_spec k k1) as [<-|N]; cbn [lookup]; unfold beqb in *.
      * now destruct (list_eq_dec N.eq_dec k0 k).
      * destruct (list_eq_dec N.eq_dec k0 k1) as [->|N1].
        -- destruct (list_eq_dec N.eq_dec k1 k) as [E|_]; [congruence|reflexivity].
        -- exact IH.
Qed.
Print Assumptions C55_insert_checks.
Example C55_insert_case : rec_insert (str "$x") VNull [] = None /\
  rec_insert (str "x") (VBool true) [(str "y", VNull); (str "x", VNull)] = Some [(str "y", VNull); (str "x", VBool true)].
Proof. split; reflexivity. Qed.

(** * C56: numbers are narrowed exactly or not at all *)
(** Integers: the answer is in range and is the number, with one exception: a float one above the
    largest u64 or i64 (usize, isize) is answered as that largest integer. *)
Theorem C56_integer_exact : forall t n c, as_int t n = Some c ->
  in_range t c = true /\
  (num_val n = Some (c * f64_unit)%Z \/
   c = snd (irange t) /\ (c = 18446744073709551615 \/ c = 9223372036854775807)%Z /\ num_val n = Some ((c + 1) * f64_unit)%Z).
Proof.
  intros t n c H. apply as_int_sound in H. destruct H as (R & H). split; [assumption|]. destruct n as [v|v|x]; cbn [num_val].
  - left. now rewrite H.
  - left. now rewrite H.
  - destruct H as (N & H). rewrite N. destruct H as [H|(H1 & H2 & H3)]; [left; now rewrite H|right; rewrite H2; auto].
Qed.
Print Assumptions C56_integer_exact.
Theorem C56_integer_complete : forall t n c, in_range t c = true -> num_val n = Some (c * f64_unit)%Z -> as_int t n = Some c.
Proof.
  intros t n c R H. pose proof unit_pos. apply as_int_complete; [assumption|]. destruct n as [v|v|x]; cbn [num_val] in H.
  - assert (E : (Z.of_N v * f64_unit = c * f64_unit)%Z) by congruence. apply Z.mul_reg_r in E; [assumption|lia].
  - assert (E : (v * f64_unit = c * f64_unit)%Z) by congruence. apply Z.mul_reg_r in E; [assumption|lia].
  - destruct (f64_nan x); [discriminate|]. split; [reflexivity|congruence].
Qed.
Print Assumptions C56_integer_complete.
Example C56_integer_case : as_int I8 (NF64 (f64_of_Z (-128))) = Some (-128)%Z /\ as_int I8 (NI64 128) = None /\ as_int U64 (NF64 f64_1_5) = None /\
  in_range I8 (-128) = true /\ num_val (NF64 (f64_of_Z (-128))) = Some (-128 * f64_unit)%Z.
Proof. vm_compute. repeat split. Qed.
Theorem C56_refuted_integer_maximum :
  num_val (NF64 (f64_of_Z 18446744073709551616)) = Some (18446744073709551616 * f64_unit)%Z /\
  as_int U64 (NF64 (f64_of_Z 18446744073709551616)) = Some 18446744073709551615%Z /\
  num_val (NF64 (f64_of_Z 9223372036854775808)) = Some (9223372036854775808 * f64_unit)%Z /\
  as_int I64 (NF64 (f64_of_Z 9223372036854775808)) = Some 9223372036854775807%Z.
Proof. vm_compute. repeat split. Qed.
Print Assumptions C56_refuted_integer_maximum.

(** f64: NaN to NaN, otherwise the number itself; the exceptions are the largest u64 and i64, which
    are answered one too large. *)
Theorem C56_f64_exact : forall n y, num_ok n -> as_f64 n = Some y ->
  f64_value y = num_val n \/
  (n = NU64 18446744073709551615 /\ f64_value y = Some (18446744073709551616 * f64_unit)%Z) \/
  (n = NI64 9223372036854775807 /\ f64_value y = Some (9223372036854775808 * f64_unit)%Z).
Proof.
  intros n y W H. pose proof (as_f64_sound n y W H) as S. destruct n as [v|v|x]; cbn [num_val int_of int_max] in *; unfold f64_value.
  - destruct S as (-> & [S|(S1 & S2)]); [left; now rewrite S|right; left]. assert (E : v = 18446744073709551615) by lia. subst v. split; [reflexivity|]. rewrite S2. reflexivity.
  - destruct S as (-> & [S|(S1 & S2)]); [left; now rewrite S|right; right]. subst v. split; [reflexivity|]. rewrite S2. reflexivity.
  - left. now rewrite S.
Qed.
Print Assumptions C56_f64_exact.
Theorem C56_f64_complete : forall n y, num_ok n -> f64_value y = num_val n -> exists y', as_f64 n = Some y' /\ f64_value y' = num_val n.
Proof.
  intros n y W H. destruct (is_flt n) eqn:F.
  - destruct n as [|?|x]; try discriminate. exists x. split; [|reflexivity]. cbn [as_f64]. destruct (f64_nan x) eqn:N; [reflexivity|].
    replace (f64_eq x x) with true; [reflexivity|]. symmetry. apply f64_eq_iff. auto.
  - assert (E : num_val n = Some (int_of n * f64_unit)%Z) by (destruct n; try discriminate; reflexivity). rewrite E in H |- *. unfold f64_value in H. destruct (f64_nan y) eqn:N; [discriminate|].
    destruct (as_f64_complete n y W N) as (y' & A & B & C); [congruence|assumption|]. exists y'. split; [assumption|]. unfold f64_value. rewrite B, C. congruence.
Qed.
Print Assumptions C56_f64_complete.
Example C56_f64_case : num_ok (NU64 9007199254740993) /\ as_f64 (NU64 9007199254740993) = None /\ as_f64 (NI64 (-3)) = Some (f64_of_Z (-3)) /\
  f64_value (f64_of_Z (-3)) = num_val (NI64 (-3)).
Proof. vm_compute. repeat split. Qed.
(** f32 likewise. *)
Theorem C56_f32_exact : forall n y, num_ok n -> as_f32 n = Some y ->
  f32_value y = num_val n \/
  (n = NU64 18446744073709551615 /\ f32_value y = Some (18446744073709551616 * f64_unit)%Z) \/
  (n = NI64 9223372036854775807 /\ f32_value y = Some (9223372036854775808 * f64_unit)%Z).
Proof.
  intros n y W H. pose proof (as_f32_sound n y W H) as S. unfold f32_value, f64_value. rewrite f32_nan_widen. destruct n as [v|v|x]; cbn [num_val int_of int_max] in *.
  - destruct S as (-> & [S|(S1 & S2)]); [left; now rewrite S|right; left]. assert (E : v = 18446744073709551615) by lia. subst v. split; [reflexivity|]. rewrite S2. reflexivity.
  - destruct S as (-> & [S|(S1 & S2)]); [left; now rewrite S|right; right]. subst v. split; [reflexivity|]. rewrite S2. reflexivity.
  - left. destruct (f64_nan x); [now rewrite S|]. destruct S as (-> & ->). reflexivity.
Qed.
Print Assumptions C56_f32_exact.
Theorem C56_f32_complete : forall n y, num_ok n -> y < 4294967296 -> f32_value y = num_val n -> exists y', as_f32 n = Some y' /\ f32_value y' = num_val n.
Proof.
  intros n y W B H. unfold f32_value, f64_value in *. rewrite f32_nan_widen in H. destruct (is_nan y) eqn:N.
  - destruct n as [v|v|x]; cbn [num_val] in *; try discriminate. destruct (f64_nan x) eqn:Nx; [|discriminate].
    exists (f64_to_f32 x). unfold as_f32. rewrite Nx. split; [reflexivity|]. rewrite f32_nan_widen, narrow_nan by assumption. reflexivity.
  - assert (K : match n with NF64 x => f64_nan x = false /\ f64_val (f32_to_f64 y) = f64_val x | _ => f64_val (f32_to_f64 y) = (int_of n * f64_unit)%Z end).
    { destruct n as [v|v|x]; cbn [num_val int_of] in *; [congruence|congruence|]. destruct (f64_nan x); [discriminate|]. split; [reflexivity|congruence]. }
    destruct (as_f32_complete n y W B N K) as (y' & A & N' & V). exists y'. split; [assumption|]. rewrite f32_nan_widen, N', V. exact H.
Qed.
Print Assumptions C56_f32_complete.
Example C56_f32_case : num_ok (NF64 f64_1_5) /\ as_f32 (NF64 f64_1_5) <> None /\ as_f32 (NF64 4607182418800017409) = None /\
  as_f32 (NF64 9218868437227405311) = None /\ as_f32 (NU64 16777217) = None /\ f32_value f32_one = num_val (NU64 1).
Proof. vm_compute. repeat split; discriminate. Qed.
Theorem C56_refuted_float_of_maximum :
  as_f64 (NU64 18446744073709551615) = Some (f64_of_Z 18446744073709551616) /\ as_f64 (NI64 9223372036854775807) = Some (f64_of_Z 9223372036854775808) /\
  as_f32 (NU64 18446744073709551615) <> None /\ f64_value (f64_of_Z 18446744073709551616) = Some (18446744073709551616 * f64_unit)%Z.
Proof. vm_compute. repeat split; discriminate. Qed.
Print Assumptions C56_refuted_float_of_maximum.

(** * C57: what a load may answer *)
(** Data of the type asked for, whatever the manifest holds. *)
Theorem C57_load_typed : forall t v d, numbers num_ok v -> load t v = Ok d -> has_ty t d.
Proof. exact load_typed. Qed.
Print Assumptions C57_load_typed.
(** A struct only from a record of its own version, each field from the entry of its own name. *)
Theorem C57_struct_from_own_fields : forall ver fs v d, load (TRec ver fs) v = Ok d ->
  exists r ds, v = VObj ver r /\ d = DRec ds /\
    Forall2 (fun field d => exists x, lookup (fst field) r = Some x /\ load (snd field) x = Ok d) fs ds.
Proof.
  intros ver fs v d H. destruct v as [| | | | |ver' r|]; try discriminate. rewrite load_rec in H. destruct (version_eqb_spec ver' ver) as [->|]; [|discriminate].
  apply rmap_ok in H. destruct H as (ds & H & ->). exists r, ds. split; [reflexivity|split; [reflexivity|]]. now apply load_fields_forall.
Qed.
Print Assumptions C57_struct_from_own_fields.
(** An enum only from a record of its own version with a single entry, named as one of its
    variants. *)
Theorem C57_enum_from_own_variant : forall ver vs v d, load (TEnum ver vs) v = Ok d ->
  exists k x o, v = VObj ver [(k, x)] /\ In (k, o) vs /\
    match o with Some t => exists d', load t x = Ok d' /\ d = DVar k (Some d') | None => d = DVar k None end.
Proof.
  intros ver vs v d H. destruct v as [| | | | |ver' r|]; try discriminate. rewrite load_enum in H. destruct (version_eqb_spec ver' ver) as [->|]; [|discriminate].
  destruct r as [|(k, x) [|]]; try discriminate. apply load_var_in in H. destruct H as (o & A & B). now exists k, x, o.
Qed.
Print Assumptions C57_enum_from_own_variant.
Example C57_case :
  numbers num_ok (save sample_ty sample_dat) /\ load sample_ty (save sample_ty sample_dat) = Ok sample_dat /\
  load (TRec (mkver 1 2) [(str "x", TBool)]) (VObj (mkver 1 3) [(str "x", VBool true)]) = Err UnknownVersion /\
  load (TRec (mkver 1 2) [(str "x", TBool)]) (VObj (mkver 1 2) [(str "y", VBool true)]) = Err MissingField /\
  load (TEnum (mkver 1 2) [(str "A", Some TBool)]) (VObj (mkver 1 2) [(str "A", VBool true)]) = Ok (DVar (str "A") (Some (DBool true))).
Proof.
  split; [|repeat split; vm_compute; reflexivity]. vm_compute. repeat split; try discriminate; try reflexivity; auto.
Qed.
(** Loading from the manifest answers as loading from memory does, for every type: the same data or
    the same error, if the value holds no i64 equal to the largest. *)
Theorem C57_manifest_like_memory : forall ord t v, (forall l, Permutation (ord l) l) ->
  value_ok v -> numbers (fun n => n <> NI64 9223372036854775807) v ->
  exists v', de (ser ord v) = Some v' /\ same_result (load t v) (load t v').
Proof.
  intros ord t v O W NM. destruct (de_ser ord O v W) as (v' & E & Q). exists v'. split; [exact E|]. apply load_same; [exact W| |exact Q]. apply numbers_calm. exact NM.
Qed.
Print Assumptions C57_manifest_like_memory.
Example C57_manifest_like_memory_case : value_ok (VNum (NI64 5)) /\ numbers (fun n => n <> NI64 9223372036854775807) (VNum (NI64 5)) /\
  load (TInt U8) (VNum (NI64 5)) = Ok (DInt 5) /\ de (ser (fun l => l) (VNum (NI64 5))) = Some (VNum (NU64 5)) /\ load (TInt U8) (VNum (NU64 5)) = Ok (DInt 5).
Proof. repeat split; cbn; unfold i64_min, i64_max; try lia; discriminate. Qed.
(** With it, a float loads from memory (one too large) and is refused from the manifest. *)
Theorem C57_refuted_manifest_like_memory : let v := VNum (NI64 9223372036854775807) in
  value_ok v /\ load TF64 v = Ok (DF64 (f64_of_Z 9223372036854775808)) /\
  exists v', de (ser (fun l => l) v) = Some v' /\ load TF64 v' = Err NumberOutOfRange.
Proof. cbn zeta. split; [cbn; unfold i64_min, i64_max; lia|]. split; [vm_compute; reflexivity|]. exists (VNum (NU64 9223372036854775807)). split; vm_compute; reflexivity. Qed.
Print Assumptions C57_refuted_manifest_like_memory.
(** An object in the manifest is read as a record only if it carries a version, which becomes the
    record's, and no handle; its fields are entries of the object.  It is read as a handle only if
    it has no other entry. *)
Lemma de_map_sound : forall m ver h fs v, de_map m ver h fs = Some v ->
  match v with
  | VObj ver' r => h = None /\ ~ In k_handle (map fst m) /\
      (ver = Some ver' \/ exists s, In (k_version, JStr s) m /\ parse_version s = Some ver') /\
      (forall k x, In (k, x) r -> In (k, x) fs \/ exists j, In (k, j) m /\ de j = Some x)
  | VHandle name => ver = None /\ fs = [] /\ (h = Some name \/ In (k_handle, JStr name) m) /\ (forall k, In k (map fst m) -> k = k_handle)
  | _ => False
  end.
Proof.
  induction m as [|(k, j) m IH]; intros ver h fs v H; cbn [de_map] in H.
  - unfold close_map in H. destruct h as [name|].
    + destruct ver; [discriminate|]. destruct fs; [|discriminate]. injection H as <-. repeat split; auto. intros k [].
    + destruct ver as [ver'|]; [|discriminate]. injection H as <-. repeat split; auto.
  - destruct (beqb_spec k k_version) as [->|NV].
    + destruct j as [| | | | |s| |]; try discriminate. destruct (parse_version s) as [v0|] eqn:PV; [|discriminate]. apply IH in H.
      destruct v as [| | | | |ver' r|name]; try contradiction.
      * destruct H as (A & B & C & D). split; [exact A|]. split; [intros [E|E]; [vm_compute in E; discriminate|tauto]|]. split.
        -- right. destruct C as [[= <-]|(s' & C & C')]; [exists s; split; [now left|exact PV]|exists s'; split; [now right|exact C']].
        -- intros k x Hx. destruct (D k x Hx) as [?|(j & ? & ?)]; [now left|right; exists j; split; [now right|assumption]].
      * destruct H as (A & _). discriminate.
    + destruct (beqb_spec k k_handle) as [->|NH].
      * destruct j as [| | | | |s| |]; try discriminate. apply IH in H. destruct v as [| | | | |ver' r|name]; try contradiction.
        -- destruct H as (A & _). discriminate.
        -- destruct H as (A & B & C & D). split; [exact A|]. split; [exact B|]. split.
           ++ right. destruct C as [[= <-]|C]; [now left|now right].
           ++ intros k [<-|Hk]; [reflexivity|auto].
      * destruct (de j) as [x0|] eqn:DJ; [|discriminate]. apply IH in H. destruct v as [| | | | |ver' r|name]; try contradiction.
        -- destruct H as (A & B & C & D). split; [exact A|]. split; [intros [E|E]; [elim NH; exact E|tauto]|]. split.
           ++ destruct C as [C|(s & C & C')]; [now left|right; exists s; split; [now right|exact C']].
           ++ intros k0 x Hx. destruct (D k0 x Hx) as [Hf|(j0 & ? & ?)]; [|right; exists j0; split; [now right|assumption]].
              assert (PK : forall fs, In (k0, x) (put_key k x0 fs) -> (k0 = k /\ x = x0) \/ In (k0, x) fs).
              { clear. induction fs as [|(k1, v1) fs IHf]; cbn [put_key]; [intros [[= <- <-]|[]]; now left|].
                destruct (beqb_spec k k1) as [<-|]; intros [E|E]; [left; split; congruence|right; now right|right; now left|].
                destruct (IHf E); [now left|right; now right]. }
              destruct (PK fs Hf) as [(-> & ->)|Hf']; [right; exists j; split; [now left|exact DJ]|now left].
        -- destruct H as (_ & B & _). exfalso. revert B. clear. destruct fs as [|(k1, v1) fs]; cbn [put_key]; [discriminate|]. destruct (beqb k k1); discriminate.
Qed.
Theorem C57_manifest_objects : forall m v, de (JObj m) = Some v ->
  (exists ver r s, v = VObj ver r /\ In (k_version, JStr s) m /\ parse_version s = Some ver /\ ~ In k_handle (map fst m) /\
     forall k x, In (k, x) r -> exists j, In (k, j) m /\ de j = Some x) \/
  (exists h, v = VHandle h /\ In (k_handle, JStr h) m /\ forall k, In k (map fst m) -> k = k_handle).
Proof.
  intros m v H. rewrite de_obj in H. apply de_map_sound in H. destruct v as [| | | | |ver r|h]; try contradiction.
  - left. destruct H as (_ & A & [B|(s & B & C)] & D); [discriminate|]. exists ver, r, s. split; [reflexivity|]. split; [exact B|]. split; [exact C|].
    split; [exact A|]. intros k x Hx. destruct (D k x Hx) as [[]|E]. exact E.
  - right. destruct H as (_ & _ & [A|A] & B); [discriminate|]. now exists h.
Qed.
Print Assumptions C57_manifest_objects.
Example C57_manifest_objects_case :
  de (JObj [(k_version, JStr (str "1.2")); (str "n", JBool true)]) = Some (VObj (mkver 1 2) [(str "n", VBool true)]) /\
  de (JObj [(str "n", JBool true)]) = None /\ de (JObj [(k_handle, JStr (str "f"))]) = Some (VHandle (str "f")) /\
  de (JObj [(k_handle, JStr (str "f")); (str "n", JBool true)]) = None.
Proof. repeat split; vm_compute; reflexivity. Qed.
(** Trying another loader is suggested (the error is recoverable) for a value of another shape and
    a missing field, and never for a number out of range, a record of another version or an
    unknown variant. *)
Theorem C57_recoverable :
  (forall i n e, load (TInt i) (VNum n) = Err e \/ load (TNonZero i) (VNum n) = Err e -> is_recoverable e = false) /\
  (forall n e, load TF32 (VNum n) = Err e \/ load TF64 (VNum n) = Err e -> is_recoverable e = false) /\
  (forall ver ver' fs r, ver <> ver' -> exists e, load (TRec ver fs) (VObj ver' r) = Err e /\ is_recoverable e = false) /\
  (forall ver vs k x, ~ In k (map fst vs) -> exists e, load (TEnum ver vs) (VObj ver [(k, x)]) = Err e /\ is_recoverable e = false) /\
  (forall t v, match t, v with
               | (TInt _ | TNonZero _ | TF32 | TF64), VNum _ | TBool, VBool _ | TStr, VStr _ | THandle, VHandle _
               | TVec _, VArr _ | (TRec _ _ | TEnum _ _), VObj _ _ | TOpt _, _ => True
               | _, _ => exists e, load t v = Err e /\ is_recoverable e = true
               end) /\
  (forall ver k t fs r, lookup k r = None -> exists e, load (TRec ver ((k, t) :: fs)) (VObj ver r) = Err e /\ is_recoverable e = true).
Proof.
  split; [|split; [|split; [|split; [|split]]]].
  - intros i n e [H|H]; cbn [load load_num] in H; unfold or_err in H; destruct (as_int i n) as [z|]; cbn [rmap] in H; try discriminate.
    + injection H as <-. reflexivity.
    + destruct (z =? 0)%Z; [|discriminate]. injection H as <-. reflexivity.
    + injection H as <-. reflexivity.
  - intros n e [H|H]; cbn [load load_num] in H; unfold or_err in H; [destruct (as_f32 n)|destruct (as_f64 n)]; cbn [rmap] in H; try discriminate; injection H as <-; reflexivity.
  - intros ver ver' fs r N. exists UnknownVersion. split; [|reflexivity]. rewrite load_rec. destruct (version_eqb_spec ver' ver); [congruence|reflexivity].
  - intros ver vs k x N. exists UnknownVariant. split; [|reflexivity]. rewrite load_enum. destruct (version_eqb_spec ver ver); [|congruence].
    induction vs as [|(k', o) vs IH]; [reflexivity|]. cbn [load_var]. destruct (beqb_spec k k') as [->|]; [elim N; now left|].
    apply IH. intros H. apply N. now right.
  - intros t v. destruct t, v; try exact I; (eexists; split; [reflexivity|reflexivity]).
  - intros ver k t fs r N. exists MissingField. split; [|reflexivity]. rewrite load_rec. destruct (version_eqb_spec ver ver); [|congruence].
    cbn [load_fields]. rewrite N. reflexivity.
Qed.
Print Assumptions C57_recoverable.
(** Versions read back from their text, so different versions have different texts. *)
Theorem C57_version_text : forall v, ver_ok v -> parse_version (show_version v) = Some v.
Proof. exact parse_show. Qed.
Print Assumptions C57_version_text.
Theorem C57_version_text_distinct : forall v w, ver_ok v -> ver_ok w -> show_version v = show_version w -> v = w.
Proof. intros v w A B E. apply parse_show in A, B. congruence. Qed.
Print Assumptions C57_version_text_distinct.
Example C57_version_case : ver_ok (mkver 4294967295 10) /\ show_version (mkver 4294967295 10) = str "4294967295.10" /\ ver_ok (mkver 4 10).
Proof. repeat split. Qed.
