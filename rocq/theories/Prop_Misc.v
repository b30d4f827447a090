(** Properties C53, C54, C56: allocation sizes, printing, checked arithmetic. [w] is the number of bits of [std::size_t]. *)
From Coq Require Import String Ascii List Arith NArith ZArith Lia Bool Permutation.
From Flocq Require Import Core BinarySingleNaN.
From Verif Require Import Base Config Morton Build TreeSpec FOps Disc NodeProps Tree TreeInv TreeProofs TreeEx Force ForceEx Util Print MiscProofs.
Import ListNotations.
Local Open Scope nat_scope.

(** C53. Up to [max_size()] elements: at least the size of the elements, a multiple of the alignment, no more than necessary for that, and no wrap-around. *)
Theorem C53_enough_memory :
  forall (w alignment sz n : N) (Hsz : (0 < sz)%N) (Halign : (alignment < 2 ^ w)%N) (Hn : (n <= max_size w alignment sz)%N),
  match allocate w alignment sz n with
  | Malloc size => alignment = 0%N /\ size = (n * sz)%N /\ (size < 2 ^ w)%N
  | AlignedAlloc a size => a = alignment /\ alignment <> 0%N /\ (n * sz <= size)%N /\ (size < n * sz + alignment)%N /\ (size mod alignment)%N = 0%N /\ (size < 2 ^ w)%N
  end.
Proof.
  intros w alignment sz n Hsz Halign Hn. pose proof (pow_pos w) as Hp.
  destruct (allocate_spec w alignment sz n Hsz ltac:(unfold umax; lia) Hn) as (H1 & H2 & H3 & H4). unfold umax in H2.
  destruct (N.eq_dec alignment 0) as [->|H0].
  - specialize (H4 eq_refl). unfold allocate in *. cbn in *. repeat split; lia.
  - destruct (allocate_aligned w alignment sz n H0) as [s Es]. rewrite Es in *. cbn [requested] in *. destruct (H3 H0) as [H5 H6]. repeat split; auto; lia.
Qed.
Print Assumptions C53_enough_memory.

Example C53_ex : max_size 64 32 8 = 2305843009213693947%N /\ allocate 64 32 8 2305843009213693947 = AlignedAlloc 32 18446744073709551584.
Proof. vm_compute. auto. Qed.

(** C53. Which alignments are accepted by the static assertion. *)
Theorem C53_alignments :
  forall (w alignment natural : N) (Halign : (alignment < 2 ^ w)%N),
  valid_alignment w alignment natural = true <-> alignment = 0%N \/ (natural <= alignment)%N /\ exists k, alignment = (2 ^ k)%N.
Proof.
  intros w alignment natural Halign. pose proof (pow_pos w) as Hp.
  exact (valid_alignment_spec w alignment natural ltac:(unfold umax; lia)).
Qed.
Print Assumptions C53_alignments.

Example C53_alignments_ex : valid_alignment 64 32 8 = true /\ valid_alignment 64 48 8 = false /\ valid_alignment 64 4 8 = false /\ valid_alignment 64 0 8 = true.
Proof. vm_compute. auto. Qed.

(** C53. A vector never gets less memory than it needs: larger sizes are refused. *)
Theorem C53_vectors :
  forall (w alignment sz n : N) (Hsz : (0 < sz)%N) (Halign : (alignment < 2 ^ w)%N),
  match vector_alloc w alignment sz n with
  | Ok r => (n * sz <= requested r < 2 ^ w)%N
  | Throw e => e = BadAlloc /\ (2 ^ w <= n * sz + alignment + sz)%N
  | UB => False
  end.
Proof.
  intros w alignment sz n Hsz Halign. pose proof (pow_pos w) as Hp. unfold vector_alloc.
  destruct (N.ltb_spec (max_size w alignment sz) n) as [L|L].
  - split; [reflexivity|]. unfold max_size in L. pose proof (N.mul_succ_div_gt (umax w - alignment) sz ltac:(lia)) as H. unfold umax in *. nia.
  - destruct (allocate_spec w alignment sz n Hsz ltac:(unfold umax; lia) L) as (H1 & H2 & _). unfold umax in H2. lia.
Qed.
Print Assumptions C53_vectors.

(** C53. The allocator itself does not refuse larger sizes: a direct call can get far too little. *)
Theorem C53_direct_calls_refuted : exists alignment sz n : N,
  valid_alignment 64 alignment sz = true /\ (n < 2 ^ 64)%N /\ (max_size 64 alignment sz < n)%N /\ (requested (allocate 64 alignment sz n) < n * sz)%N.
Proof. exists 32%N, 8%N, 2305843009213693953%N. vm_compute. auto. Qed.
Print Assumptions C53_direct_calls_refuted.

(** C54. Printing with a limit: all the nodes if the limit is zero or not below their number, otherwise the first ones in order, followed by an ellipsis. *)
Theorem C54_printed_nodes :
  forall (F : Type) (showF : F -> string) (c : cfg) (t : @tree F) (k : nat) (Hnodes : t_nodes t <> []),
  let header := ("Box size                 : " ++ showF (t_box t) ++ (if t_ded t then " (deduced)" else "") ++ newline ++
      "Total number of particles: " ++ showN (N.of_nat (length (t_codes t))) ++ newline ++
      "Total number of nodes    : " ++ showN (N.of_nat (length (t_nodes t))) ++ newline ++ newline)%string in
  (k = 0 \/ length (t_nodes t) <= k ->
     pprint showF c t k = (header ++ "Nodes:" ++ newline ++ String.concat "" (map (node_line showF c) (t_nodes t)))%string) /\
  (0 < k < length (t_nodes t) ->
     pprint showF c t k = (header ++ "First " ++ showN (N.of_nat k) ++ " nodes:" ++ newline ++
                             String.concat "" (map (node_line showF c) (firstn k (t_nodes t))) ++ "..." ++ newline)%string).
Proof.
  intros F showF c t k Hnodes.
  set (h := ("Box size                 : " ++ showF (t_box t) ++ (if t_ded t then " (deduced)" else "") ++ newline ++
      "Total number of particles: " ++ showN (N.of_nat (length (t_codes t))) ++ newline ++
      "Total number of nodes    : " ++ showN (N.of_nat (length (t_nodes t))) ++ newline ++ newline)%string).
  intros header. change header with h. clear header. assert (X : forall k', pprint showF c t k' = (h ++ (if ((0 <? k')%nat && (k' <? length (t_nodes t))%nat)%bool then "First " ++ showN (N.of_nat k') ++ " nodes:" ++ newline else "Nodes:" ++ newline) ++
    String.concat "" (map (node_line showF c) (if (k' =? 0)%nat then t_nodes t else firstn k' (t_nodes t))) ++
      (if ((0 <? k')%nat && (k' <? length (t_nodes t))%nat)%bool then "..." ++ newline else ""))%string).
  { intros k'. destruct (pprint_spec showF c t k' Hnodes) as (title & -> & ->). unfold h. rewrite !app_assoc_s. reflexivity. }
  clearbody h. split; intros Hk; rewrite X.
  - replace ((0 <? k) && (k <? length (t_nodes t))) with false by (symmetry; apply andb_false_iff; rewrite !Nat.ltb_ge; lia).
    rewrite app_nil_s. rewrite !app_assoc_s. repeat f_equal. destruct (Nat.eqb_spec k 0); [reflexivity|]. apply firstn_all2. lia.
  - replace ((0 <? k) && (k <? length (t_nodes t))) with true by (symmetry; apply andb_true_iff; rewrite !Nat.ltb_lt; lia).
    destruct (Nat.eqb_spec k 0); [lia|]. rewrite !app_assoc_s. reflexivity.
Qed.
Print Assumptions C54_printed_nodes.

(** C54. The stream operator prints at most twenty nodes; a tree without nodes is printed as three lines and an empty one. *)
Theorem C54_stream :
  forall (F : Type) (showF : F -> string) (c : cfg) (t : @tree F),
  let header := ("Box size                 : " ++ showF (t_box t) ++ (if t_ded t then " (deduced)" else "") ++ newline ++
      "Total number of particles: " ++ showN (N.of_nat (length (t_codes t))) ++ newline ++
      "Total number of nodes    : " ++ showN (N.of_nat (length (t_nodes t))) ++ newline ++ newline)%string in
  (t_nodes t = [] -> stream showF c t = header /\ forall k, pprint showF c t k = header) /\
  (0 < length (t_nodes t) <= 20 -> stream showF c t = (header ++ "Nodes:" ++ newline ++ String.concat "" (map (node_line showF c) (t_nodes t)))%string) /\
  (20 < length (t_nodes t) ->
     stream showF c t = (header ++ "First 20 nodes:" ++ newline ++ String.concat "" (map (node_line showF c) (firstn 20 (t_nodes t))) ++ "..." ++ newline)%string).
Proof.
  intros F showF c t header. split; [|split].
  - intros H. assert (X : forall k, pprint showF c t k = header) by (intros k; unfold header, pprint; rewrite H; cbn [length Nat.eqb]; rewrite app_nil_s; reflexivity).
    split; [apply X|exact X].
  - intros H. destruct (C54_printed_nodes F showF c t 20) as [X _]; [intros E; rewrite E in H; cbn in H; lia|]. apply X. right. lia.
  - intros H. destruct (C54_printed_nodes F showF c t 20) as [_ X]; [intros E; rewrite E in H; cbn in H; lia|]. apply X. lia.
Qed.
Print Assumptions C54_stream.

(** C54. The code at the beginning of each line has all the binary digits of the code type, and can be read back. *)
Theorem C54_printed_codes :
  forall (F : Type) (showF : F -> string) (c : cfg) (nd : node (props F)) (Hcode : (n_code nd < 2 ^ width c)%N),
  exists digits rest, node_line showF c nd = (digits ++ "|" ++ rest)%string /\ String.length digits = N.to_nat (width c) /\ read_bits 0 digits = Some (n_code nd).
Proof.
  intros F showF c nd Hcode. exists (bitset (N.to_nat (width c)) (n_code nd)). eexists. split; [reflexivity|]. split; [apply bitset_length|].
  apply bitset_value. now rewrite N2Nat.id.
Qed.
Print Assumptions C54_printed_codes.

(** C54. What is printed for a node: code, first particle and the one after the last, number of descendants, mass, and the coordinates of the centre of
    mass separated by commas. [dec n] are the decimal digits. *)
Theorem C54_node_text :
  forall (F : Type) (showF : F -> string) (c : cfg) (nd : node (props F)) (Hcom : length (p_com (n_props nd)) = dim c),
  exists digits dec, node_line showF c nd =
    (digits ++ "|" ++ dec (n_begin nd) ++ "," ++ dec (n_end nd) ++ "," ++ dec (n_children nd) ++ "|" ++
     showF (p_mass (n_props nd)) ++ "|[" ++ String.concat ", " (map showF (p_com (n_props nd))) ++ "]" ++ newline)%string /\
    String.length digits = N.to_nat (width c) /\
    forall n, option_map N.of_uint (DecimalString.NilEmpty.uint_of_string (dec n)) = Some (N.of_nat n).
Proof.
  intros F showF c nd Hcom. exists (bitset (N.to_nat (width c)) (n_code nd)), (fun n => showN (N.of_nat n)). split; [|split; [apply bitset_length|]].
  - unfold node_line. now rewrite com_text_concat by exact Hcom.
  - intros n. apply showN_read.
Qed.
Print Assumptions C54_node_text.

Example C54_text_ex : exists nd, In nd (t_nodes (exF_tree None)) /\ length (p_com (n_props nd)) = 3 /\ n_children nd > 0.
Proof.
  assert (X : match t_nodes (exF_tree None) with nd :: _ => (length (p_com (n_props nd)) =? 3) && (0 <? n_children nd) | [] => false end = true) by (vm_compute; reflexivity).
  destruct (t_nodes (exF_tree None)) as [|nd l]; [discriminate|]. exists nd. apply andb_true_iff in X as [X Y]. apply Nat.eqb_eq in X. apply Nat.ltb_lt in Y. split; [now left|]. split; [exact X|lia].
Qed.

Example C54_ex : (2 <? length (t_nodes (exF_tree None))) = true /\ match t_nodes (exF_tree None) with nd :: _ => (n_code nd <? 2 ^ 64)%N = true | [] => False end /\
  bitset 8 37 = "00100101"%string /\ showN 1200 = "1200"%string.
Proof. vm_compute. auto. Qed.

(** More than twenty nodes: two particles at the same place. *)
Definition ex54_cols : list (list (binary_float 24 128)) := repeat (repeat (F32 1 (-3)) 2) 4.
Definition ex54_op : @op (binary_float 24 128) := OConstruct (ex_sched false) (Some (F32 1 0)) (Ranges ex54_cols) (Some 1) (Some 2).
Definition ex54_of (simd : option nat) : @tree (binary_float 24 128) :=
  match run exFO (ex3E Bh simd) [ex54_op] [] with Ok (t :: _) => t | _ => default_tree exFO (ex3E Bh simd) end.
Definition ex54_tree := ex54_of None.
Example C54_stream_ex : length (t_codes ex54_tree) = 2 /\ (20 <? length (t_nodes ex54_tree)) = true /\ length (t_nodes (exF_tree None)) = 8.
Proof. split; [vm_compute; reflexivity|]. split; vm_compute; reflexivity. Qed.

(** C56. The checked addition gives the sum or throws, and throws only if the sum is not representable. *)
Theorem C56_checked_addition :
  forall (w out add : N) (Hout : (out < 2 ^ w)%N) (Hadd : (add < 2 ^ w)%N),
  ((out + add < 2 ^ w)%N -> uinc w out add = Ok (out + add)%N) /\ ((2 ^ w <= out + add)%N -> uinc w out add = Throw OverflowError).
Proof.
  intros w out add Hout Hadd. pose proof (pow_pos w) as Hp. rewrite uinc_spec by (unfold umax; lia). unfold umax.
  split; intros H; destruct (N.leb_spec (out + add) (2 ^ w - 1)); try reflexivity; lia.
Qed.
Print Assumptions C56_checked_addition.

(** C56. Concurrent checked additions to a shared counter, in any order: if the total is representable nobody throws and the counter has the total; otherwise somebody throws. *)
Theorem C56_concurrent_additions :
  forall (w v : N) (adds order : list N) (Hv : (v < 2 ^ w)%N) (Hadds : Forall (fun a => (a < 2 ^ w)%N) adds) (Horder : Permutation adds order),
  ((v + fold_right N.add 0 adds < 2 ^ w)%N -> atomic_run w v order = ((v + fold_right N.add 0 adds)%N, repeat false (length adds))) /\
  ((2 ^ w <= v + fold_right N.add 0 adds)%N -> In true (snd (atomic_run w v order))).
Proof.
  intros w v adds order Hv Hadds Horder. pose proof (pow_pos w) as Hp. rewrite (sum_perm _ _ Horder), (Permutation_length Horder). split; intros H.
  - apply atomic_no_overflow. unfold umax. lia.
  - apply atomic_overflow; unfold umax; [lia| |lia]. rewrite Forall_forall in *. intros x Hx. specialize (Hadds x (Permutation_in _ (Permutation_sym Horder) Hx)). lia.
Qed.
Print Assumptions C56_concurrent_additions.

Example C56_ex : atomic_run 8 250 [3; 1; 1]%N = (255%N, [false; false; false]) /\ atomic_run 8 250 [3; 4; 9]%N = (10%N, [false; true; false]).
Proof. vm_compute. auto. Qed.

(** C56. Every tree: the number of particles can be used as an iterator difference. *)
Theorem C56_counts_are_differences :
  forall (F : Type) (O : fops F) (E : env) (t : @tree F) (HE : env_ok E) (Ht : reachable O E t), (N.of_nat (length (t_codes t)) < 2 ^ 63)%N.
Proof.
  intros F O E t HE Ht. pose proof (reachable_counts O E HE t Ht) as H. unfold diff_max in H. lia.
Qed.
Print Assumptions C56_counts_are_differences.

(** C56. A larger number of particles is rejected by the constructor, before anything is read. *)
Theorem C56_large_counts_rejected :
  forall (prec emax : Z) (Hprec : Prec_gt_0 prec) (Hemax : Prec_lt_emax prec emax) (fused : bool) (E : env) (s : sched) (cols : list (list (binary_float prec emax))) (n : nat)
    (HE : env_ok E) (Hn : (2 ^ 63 <= N.of_nat n)%N) (Halloc : s_alloc s 0 = true),
  generic_ctor (Bops prec emax Hprec Hemax fused) E s None (Iterators cols n) None None = Throw OverflowError.
Proof.
  intros prec emax Hprec Hemax fused E s cols n HE Hn Halloc.
  apply (count_rejected (Bops prec emax Hprec Hemax fused) E HE); auto; try discriminate. unfold diff_max. lia.
Qed.
Print Assumptions C56_large_counts_rejected.

Example C56_counts_ex : reachable exFO (ex3E Bh None) (exF_tree None) /\ exists n, (2 ^ 63 <= N.of_nat n)%N.
Proof.
  split; [apply (exF_reachable None (or_introl eq_refl))|].
  assert (H : forall k, exists n, (k <= N.of_nat n)%N) by (intros k; exists (N.to_nat k); rewrite N2Nat.id; apply N.le_refl). apply H.
Qed.
