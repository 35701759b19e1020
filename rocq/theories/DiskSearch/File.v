(** The plain vertex provider over a disk index file, as a provider: the functions of
    diskann-disk/src/search/provider/disk_vertex_provider.rs modelled in [Disk]. *)
From Verif.Lib Require Import Base Lists Bytes.
From Verif.Disk Require Model Spec.
From Verif.DiskSearch Require Import Model.
Notation file_vp := Disk.Model.vprov.
Notation content := Disk.Spec.content.

(** Errors and panics are not told apart in [Disk]; both are counted as panics here. *)
Definition or_panic {B} (o : option B) : sres B := match o with Some x => SOk x | None => SPanic end.

(** disk_vertex_provider.rs 193-196 [clear], 260-265 [clear_before_next_read]. *)
Definition file_clear (s : file_vp) : file_vp :=
  Disk.Model.mkvp (Disk.Model.vp_vlen s) (Disk.Model.vp_bs s) (Disk.Model.vp_npb s) (Disk.Model.vp_spn s)
    (Disk.Model.vp_nlen s) (Disk.Model.vp_alen s) (Disk.Model.vp_max s) (Disk.Model.vp_sectors s)
    (Disk.Model.vp_vecs s) [] [] [].

(** disk_vertex_provider.rs 70-201, over the file [f]. *)
Definition file_vprov (f : bytes) : vprov file_vp bytes bytes :=
  mkVprov
    (fun s ids => or_panic (Disk.Model.vp_load f (map N.of_nat ids) s))
    (fun s i idx => or_panic (Disk.Model.vp_process (N.of_nat i) idx s))
    (fun s i => Disk.Model.vp_vector (N.of_nat i) s)
    (fun s i => option_map (map N.to_nat) (Disk.Model.vp_neighbors (N.of_nat i) s))
    (fun s i => Disk.Model.vp_data (N.of_nat i) s)
    file_clear.

(** Specification: the nodes of an index with the given content. *)
Definition nodes_of (c : content) (i : nat) : option (node bytes bytes) :=
  match Disk.Spec.vector_of c (N.of_nat i), Disk.Spec.neighbors_of c (N.of_nat i),
        Disk.Spec.assoc_of c (N.of_nat i) with
  | Some v, Some l, Some a => Some (mkNode v (map N.to_nat l) a)
  | _, _, _ => None
  end.

(** Specification: a provider that has everything at hand. *)
Definition ideal {V A} (nodes : nat -> option (node V A)) : vprov unit V A :=
  mkVprov (fun s _ => SOk s) (fun s _ _ => SOk s)
    (fun _ i => option_map nd_vec (nodes i)) (fun _ i => option_map nd_adj (nodes i))
    (fun _ i => option_map nd_data (nodes i)) (fun s => s).
