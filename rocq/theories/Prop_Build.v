(** Properties C14-C19 and C22: construction of the tree. *)
From Coq Require Import List Arith NArith ZArith Bool.
From Verif Require Import Base Config Morton Build TreeSpec BuildProps.
Import ListNotations.
Local Open Scope nat_scope.

(** A concrete input used by the examples: eleven sorted 30-bit codes of a three-dimensional tree,
    the last three coincident, so that the tree reaches the maximum depth. *)
Definition ex_codes : list N :=
  [0; 1; 2; 3; 5; 70; 900; 1000000000; 1073741823; 1073741823; 1073741823]%N.
Definition ex_cnp : nat -> nat -> N -> N -> outcome unit := fun _ _ _ _ => Ok tt.
Definition ex_build (split : nat) (st : list (list (node unit)) -> list (list (node unit))) sc :=
  build_tree C3_32 ex_codes 1 2 ex_cnp split st sc.

Example ex_codes_valid : valid_codes C3_32 ex_codes.
Proof. apply valid_codesb. vm_compute. reflexivity. Qed.
Example ex_reorders : forall A, reorders (@rev A).
Proof. intros A l. apply Permutation.Permutation_sym, Permutation.Permutation_rev. Qed.
Example ex_build_ok :
  match ex_build 3 (@rev _) (@rev _) with
  | Ok (tree, crit) => length tree = 28 /\ length crit = 9
  | _ => False
  end.
Proof. vm_compute. split; reflexivity. Qed.

(** C14. *)
Theorem C14_node_holds_its_cell :
  forall (c : cfg) (codes : list N) (max_leaf_n ncrit : nat) (P : Type)
    (cnp : nat -> nat -> N -> N -> outcome P)
    (Hcodes : valid_codes c codes)
    (split : nat) st sc tree crit (Hst : reorders st) (Hsc : reorders sc)
    (Hbuilt : build_tree c codes max_leaf_n ncrit cnp split st sc = Ok (tree, crit)),
  forall nd, In nd tree ->
  exists p, (n_level nd <= cbitsc c)%N /\ (p < 2 ^ (dimN c * n_level nd))%N /\
    n_code nd = (2 ^ (dimN c * n_level nd) + p)%N /\
    n_begin nd < n_end nd <= length codes /\
    forall i x, nth_error codes i = Some x ->
      (n_begin nd <= i < n_end nd <-> prefix c (n_level nd) x = p).
Proof. exact node_ranges. Qed.
Print Assumptions C14_node_holds_its_cell.

Example C14_ex : exists nd, match ex_build 3 (@rev _) (@rev _) with
  | Ok (tree, _) => In nd tree | _ => False end /\ n_level nd = 10%N /\ n_begin nd = 8 /\ n_end nd = 11.
Proof.
  exists (mkNode 8 11 0 (2 ^ 30 + 1073741823)%N 10%N tt). split; [|repeat split].
  vm_compute. repeat (try (left; reflexivity); right).
Qed.

(** C15. *)
Theorem C15_which_cells_are_nodes :
  forall (c : cfg) (codes : list N) (max_leaf_n ncrit : nat) (P : Type)
    (cnp : nat -> nat -> N -> N -> outcome P)
    (Hcodes : valid_codes c codes)
    (split : nat) st sc tree crit (Hst : reorders st) (Hsc : reorders sc)
    (Hbuilt : build_tree c codes max_leaf_n ncrit cnp split st sc = Ok (tree, crit)),
  (forall l p, (l <= cbitsc c)%N -> (p < 2 ^ (dimN c * l))%N ->
    ((exists nd, In nd tree /\ n_code nd = (2 ^ (dimN c * l) + p)%N) <->
     (0 < population c codes l p /\
      forall m, (m < l)%N -> max_leaf_n < population c codes m (ancestor c m l p)))) /\
  NoDup (map (fun nd => n_code nd) tree).
Proof. exact which_nodes. Qed.
Print Assumptions C15_which_cells_are_nodes.

(** The three coincident particles: every enclosing cell has more than one particle. *)
Example C15_ex : population C3_32 ex_codes 10 1073741823 = 3
  /\ population C3_32 ex_codes 1 (ancestor C3_32 1 10 1073741823) = 4
  /\ population C3_32 ex_codes 0 (ancestor C3_32 0 10 1073741823) = 11.
Proof. vm_compute. auto. Qed.

(** C16. *)
Theorem C16_depth_first_layout :
  forall (c : cfg) (codes : list N) (max_leaf_n ncrit : nat) (P : Type)
    (cnp : nat -> nat -> N -> N -> outcome P)
    (Hcodes : valid_codes c codes)
    (split : nat) st sc tree crit (Hst : reorders st) (Hsc : reorders sc)
    (Hbuilt : build_tree c codes max_leaf_n ncrit cnp split st sc = Ok (tree, crit)),
  forall i a, nth_error tree i = Some a ->
  i + n_children a < length tree /\
  forall j b, nth_error tree j = Some b ->
  (i < j <= i + n_children a <->
   (n_level a < n_level b)%N /\
   (n_code b / 2 ^ (dimN c * (n_level b - n_level a)))%N = n_code a) /\
  (i < j -> node_compare (width c) (dimN c) (n_code a) (n_code b) = Ok true /\
            n_begin a <= n_begin b).
Proof. exact depth_first. Qed.
Print Assumptions C16_depth_first_layout.

Example C16_ex : match ex_build 3 (@rev _) (@rev _) with
  | Ok (tree, _) => map (fun nd => n_children nd) tree = 
      [27; 15; 14; 13; 12; 11; 10; 8; 6; 5; 0; 0; 0; 0; 0; 0; 0; 10; 0; 8; 7; 6; 5; 4; 3; 2; 1; 0]
  | _ => False end.
Proof. vm_compute. reflexivity. Qed.

(** C17. *)
Theorem C17_leaves_partition :
  forall (c : cfg) (codes : list N) (max_leaf_n ncrit : nat) (P : Type)
    (cnp : nat -> nat -> N -> N -> outcome P)
    (Hcodes : valid_codes c codes)
    (split : nat) st sc tree crit (Hst : reorders st) (Hsc : reorders sc)
    (Hbuilt : build_tree c codes max_leaf_n ncrit cnp split st sc = Ok (tree, crit)),
  tiles 0 (map (fun nd => (n_begin nd, n_end nd)) (filter (fun nd => n_children nd =? 0) tree))
        (length codes) /\
  forall nd, In nd tree ->
    (n_children nd = 0 <-> (n_end nd - n_begin nd <= max_leaf_n \/ n_level nd = cbitsc c)).
Proof. exact leaves_partition. Qed.
Print Assumptions C17_leaves_partition.

Example C17_ex : match ex_build 3 (@rev _) (@rev _) with
  | Ok (tree, _) =>
      map (fun nd => (n_begin nd, n_end nd)) (filter (fun nd => n_children nd =? 0) tree)
      = [(0,1);(1,2);(2,3);(3,4);(4,5);(5,6);(6,7);(7,8);(8,11)]
  | _ => False end.
Proof. vm_compute. reflexivity. Qed.

(** C18. *)
Theorem C18_critical_nodes_partition :
  forall (c : cfg) (codes : list N) (max_leaf_n ncrit : nat) (P : Type)
    (cnp : nat -> nat -> N -> N -> outcome P)
    (Hcodes : valid_codes c codes)
    (split : nat) st sc tree crit (Hst : reorders st) (Hsc : reorders sc)
    (Hbuilt : build_tree c codes max_leaf_n ncrit cnp split st sc = Ok (tree, crit)),
  tiles 0 (map (fun x => (c_begin x, c_end x)) crit) (length codes) /\
  forall code b e, In (mkCnode code b e) crit <->
    exists nd, In nd tree /\ n_code nd = code /\ n_begin nd = b /\ n_end nd = e /\
      (e - b <= ncrit \/ e - b <= max_leaf_n \/ n_level nd = cbitsc c) /\
      forall anc, In anc tree -> (n_level anc < n_level nd)%N ->
        (n_code nd / 2 ^ (dimN c * (n_level nd - n_level anc)))%N = n_code anc ->
        ncrit < n_end anc - n_begin anc.
Proof. exact crit_partition. Qed.
Print Assumptions C18_critical_nodes_partition.

Example C18_ex : match ex_build 3 (@rev _) (@rev _) with
  | Ok (_, crit) => map (fun x => (c_begin x, c_end x)) crit
      = [(0,1);(1,2);(2,3);(3,4);(4,5);(5,6);(6,7);(7,8);(8,11)]
  | _ => False end
  /\ match build_tree C3_32 ex_codes 1 4 ex_cnp 3 (@rev _) (@rev _) with
  | Ok (_, crit) => exists l, map (fun x => (c_begin x, c_end x)) crit = l /\ length l < 9
  | _ => False end.
Proof. vm_compute. split; [reflexivity|]. eexists. split; [reflexivity|]. repeat constructor. Qed.

(** C19. [build_tree_seq] is the root followed by what one run of the serial builder appends. *)
Theorem C19_parallel_build_deterministic :
  forall (c : cfg) (codes : list N) (max_leaf_n ncrit : nat) (P : Type)
    (cnp : nat -> nat -> N -> N -> outcome P)
    (Hcodes : valid_codes c codes)
    (split1 : nat) st1 sc1 (Hst1 : reorders st1) (Hsc1 : reorders sc1) r
    (Hbuilt : build_tree c codes max_leaf_n ncrit cnp split1 st1 sc1 = Ok r),
  build_tree_seq c codes max_leaf_n ncrit P cnp = Ok r /\
  forall split2 st2 sc2, reorders st2 -> reorders sc2 ->
    build_tree c codes max_leaf_n ncrit cnp split2 st2 sc2 = Ok r.
Proof.
  intros c codes max_leaf_n ncrit P cnp Hcodes split1 st1 sc1 Hst1 Hsc1 r Hbuilt. split.
  - exact (parallel_is_sequential c codes max_leaf_n ncrit P cnp Hcodes split1 st1 sc1 r Hst1 Hsc1 Hbuilt).
  - intros split2 st2 sc2 Hst2 Hsc2.
    exact (deterministic c codes max_leaf_n ncrit P cnp Hcodes split1 st1 sc1 split2 st2 sc2 r
             Hst1 Hsc1 Hst2 Hsc2 Hbuilt).
Qed.
Print Assumptions C19_parallel_build_deterministic.

Example C19_ex : ex_build 3 (@rev _) (@rev _) = ex_build 100 (fun l => l) (fun l => l)
  /\ ex_build 3 (@rev _) (@rev _) = build_tree_seq C3_32 ex_codes 1 2 unit ex_cnp
  /\ exists r, ex_build 3 (@rev _) (@rev _) = Ok r.
Proof. vm_compute. repeat split. eexists. reflexivity. Qed.

(** C22. *)
Theorem C22_no_index_overflow :
  forall (c : cfg) (codes : list N) (max_leaf_n ncrit : nat) (P : Type)
    (cnp : nat -> nat -> N -> N -> outcome P)
    (Hcodes : valid_codes c codes)
    (split : nat) st sc (Hst : reorders st) (Hsc : reorders sc)
    (Hsize : (N.of_nat (length codes) * cbitsc c < 2 ^ 64 - 1)%N),
  match build_tree c codes max_leaf_n ncrit cnp split st sc with
  | Ok (tree, crit) =>
      length tree <= 1 + length codes * N.to_nat (cbitsc c) /\ length crit <= length codes
  | Throw e => exists b e' l p, b < e' <= length codes /\ (l <= cbitsc c)%N /\
      (p < 2 ^ (dimN c * l))%N /\ cnp b e' (2 ^ (dimN c * l) + p)%N l = Throw e
  | UB => exists b e' l p, b < e' <= length codes /\ (l <= cbitsc c)%N /\
      (p < 2 ^ (dimN c * l))%N /\ cnp b e' (2 ^ (dimN c * l) + p)%N l = UB
  end.
Proof. exact no_overflow. Qed.
Print Assumptions C22_no_index_overflow.

Example C22_ex : (N.of_nat (length ex_codes) * cbitsc C3_32 < 2 ^ 64 - 1)%N.
Proof. vm_compute. reflexivity. Qed.
