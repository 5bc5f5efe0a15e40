(** The lattice (M_Lattice, M_LatticeWalk) as PsiLatticeWriter asks it: the queries of M_PsiFile
    (formats/psi/psi_writer/psi_lattice_writer.cpp lines 74-399).
    All queries are asked of one lattice: a query may add an index of a mask, which changes
    no answer (C17).  A score is the number that M_Lattice has for it; [attrs] are the names of
    the attributes (AnnotationItemManager). *)
From Coq Require Import String Ascii List ZArith NArith Bool Arith.
From Verif Require M_Tags M_Items M_Psi M_PsiFile.
From Verif Require Import M_Cutter M_Lattice M_LatticeWalk.
Import ListNotations.
Local Open Scope nat_scope.

(** A string of M_Lattice (bytes as numbers) as a string of M_Psi. *)
Definition str_of (s : list Z) : M_Quoter.str := map (fun z => ascii_of_N (Z.to_N z)) s.
Definition psi_vertex (v : vertex) : M_Psi.vertex :=
  match v with Text p => M_Psi.At (N.of_nat p) | Loose k => M_Psi.Free (N.of_nat k) end.

Section View.
Variable topological_sort : list vertex -> list (vertex * vertex) -> option (list vertex).
Variable attrs : M_Items.manager.
Variable L : lattice.

(** Descriptors of no edges: they are not asked for; the answers are fixed. *)
Definition edge_there (d : desc) : bool :=
  match d with Implicit p => bit (implicit L) p | Explicit e => e <? length (edges L) end.
(** lattice.cpp lines 571-577. *)
Definition psi_end (get : lattice -> desc -> res vertex) (d : desc) : M_Psi.vertex :=
  if edge_there d then match get L d with Ok v => psi_vertex v | _ => M_Psi.Free 0 end else M_Psi.Free 0.
(** psi_lattice_writer.cpp lines 108-111; the index is not behind the text there. *)
Definition psi_raw (i : N) : option desc :=
  match snd (first_out_edge (Text (N.to_nat i)) symbol_mask L) with Ok d => Some d | _ => None end.
(** lattice.cpp lines 632-637. *)
Definition psi_text (d : desc) : M_Quoter.str := match edge_text L d with Ok t => str_of t | _ => [] end.
(** Lines 345-347: the tag "symbol" is number 0. *)
Definition psi_symbol (d : desc) : bool := N.testbit (edge_tags L d) 0.
(** Lines 270-271 and 358-359. *)
Definition psi_names (c : M_Tags.collection) : list M_Quoter.str :=
  match M_Tags.get_names (tags L) c with Some ns => map str_of ns | None => [] end.
(** Lines 215, 269-307. *)
Definition psi_info (d : desc) : M_PsiFile.info score :=
  let it := match annotation_item L d with Ok it => if edge_there d then it else M_Items.new_item [] [] | _ => M_Items.new_item [] [] end in
  M_PsiFile.Info (psi_names (edge_tags L d)) (str_of (M_Items.text it)) (str_of (M_Items.category it)) (edge_score L d)
    (map (fun av => (str_of (fst av), str_of (snd av))) (M_Items.get_values attrs it)).
(** Lines 336-341: the role, if it is not NULL. *)
Definition psi_role (z : M_Items.zvalue) : option M_Quoter.str :=
  match z with M_Items.ZNull => None | _ => Some (str_of (M_Items.zvalue_to_string z)) end.
(** Lines 222, 315-369. *)
Definition psi_division (p : partition) : M_PsiFile.division score desc :=
  M_PsiFile.Division
    (match snd (usages (p_sequence p) L) with Ok us => map (fun u => (fst u, psi_role (snd u))) us | _ => [] end)
    (psi_names (p_tags p)) (p_score p).
Definition psi_divisions (d : desc) : list (M_PsiFile.division score desc) := map psi_division (edge_partitions L d).
(** The iteration over a partition ends with an exception if there is no symbol; all edges of the
    graph are printed. *)
Definition readable : bool :=
  forallb (fun ed => forallb (fun p => match snd (usages (p_sequence p) L) with Ok _ => true | _ => false end) (e_partitions ed)) (edges L).
(** psi_lattice_writer.cpp lines 74-87: the lines; [None]: an exception, or [fuel] is not enough. *)
Definition psi_file (fuel : nat) : option (list (M_PsiFile.row score desc)) :=
  match snd (edges_by_target topological_sort (M_Tags.mask_const true) L) with
  | Ok order =>
      if readable then
        @M_PsiFile.written score desc 0%Z desc_eqb order (edge_hidden L) (psi_end source) (psi_end target) psi_raw (str_of (text L)) psi_text
          psi_symbol psi_info psi_divisions fuel
      else None
  | _ => None
  end.
End View.
