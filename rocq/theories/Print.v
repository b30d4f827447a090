(** Printing of trees: tree.hpp 1906-1957. *)
From Coq Require Import String Ascii DecimalString DecimalN List Arith NArith Lia Bool.
From Verif Require Import Base Config Morton Build FOps NodeProps Tree.
Import ListNotations.
Local Open Scope string_scope.
Local Open Scope nat_scope.

Definition newline : string := String "010" "".

(** [os << n] for unsigned integers: decimal digits. *)
Definition showN (n : N) : string := NilEmpty.string_of_uint (N.to_uint n).

(** [os << std::bitset<d>(code)]: [d] characters, most significant bit first. *)
Fixpoint bitset (d : nat) (code : N) : string :=
  match d with
  | O => ""
  | S d' => String (if N.testbit code (N.of_nat d') then "1" else "0")%char (bitset d' code)
  end.

Section Pprint.

Context {F : Type}.
(** [os << x] for floating-point values: depends on the state of the stream, not modelled. *)
Variable showF : F -> string.
Variable c : cfg.

(** tree.hpp 1935-1938. *)
Fixpoint com_text (j : nat) (com : list F) : string :=
  match com with
  | [] => ""
  | x :: rest => showF x ++ (if (S j <? dim c) then ", " else "") ++ com_text (S j) rest
  end.

(** tree.hpp 1932-1940: one node. [props[NDim]] is the mass, the other ones the centre of mass. *)
Definition node_line (nd : node (props F)) : string :=
  bitset (N.to_nat (width c)) (n_code nd) ++ "|" ++ showN (N.of_nat (n_begin nd)) ++ "," ++ showN (N.of_nat (n_end nd)) ++
  "," ++ showN (N.of_nat (n_children nd)) ++ "|" ++ showF (p_mass (n_props nd)) ++ "|[" ++ com_text 0 (p_com (n_props nd)) ++ "]" ++ newline.

(** tree.hpp 1929-1948: the loop; the text and the number of nodes printed. *)
Fixpoint print_nodes (max_nodes n_printed : nat) (nodes : list (node (props F))) : string * nat :=
  match nodes with
  | [] => ("", n_printed)
  | nd :: rest =>
    let n_printed' := S n_printed in                                         (* 1944 *)
    if n_printed' =? max_nodes then (node_line nd, n_printed')
    else let '(s, k) := print_nodes max_nodes n_printed' rest in (node_line nd ++ s, k)
  end.

(** tree.hpp 1906-1953, [pprint]. *)
Definition pprint (t : @tree F) (max_nodes : nat) : string :=
  let n_nodes := length (t_nodes t) in
  "Box size                 : " ++ showF (t_box t) ++ (if t_ded t then " (deduced)" else "") ++ newline ++
  "Total number of particles: " ++ showN (N.of_nat (length (t_codes t))) ++ newline ++
  "Total number of nodes    : " ++ showN (N.of_nat n_nodes) ++ newline ++ newline ++
  (if n_nodes =? 0 then ""                                                   (* 1914-1917 *)
   else
     (if negb (max_nodes =? 0) && (max_nodes <? n_nodes)                    (* 1918 *)
      then "First " ++ showN (N.of_nat max_nodes) ++ " nodes:" ++ newline
      else "Nodes:" ++ newline) ++
     (let '(s, n_printed) := print_nodes max_nodes 0 (t_nodes t) in
      s ++ (if (n_printed <? n_nodes) then "..." ++ newline else ""))).        (* 1949-1952 *)

(** tree.hpp 1954-1957, [operator<<]. *)
Definition stream (t : @tree F) : string := pprint t 20.

(** * Proofs *)

Lemma app_assoc_s : forall a b d : string, (a ++ b) ++ d = a ++ b ++ d.
Proof. induction a as [|x a IH]; intros b d; cbn; [reflexivity|]. now rewrite IH. Qed.

Lemma app_nil_s : forall a : string, a ++ "" = a.
Proof. induction a as [|x a IH]; cbn; [reflexivity|]. now rewrite IH. Qed.

Lemma print_all : forall max nodes k, (max <= k \/ k + length nodes < max) ->
  print_nodes max k nodes = (String.concat "" (map node_line nodes), k + length nodes).
Proof.
  intros max nodes. induction nodes as [|nd rest IH]; intros k H; cbn [print_nodes map length] in *; [now rewrite Nat.add_0_r|].
  destruct (Nat.eqb_spec (S k) max); [lia|]. rewrite IH by lia. f_equal; [|lia].
  destruct rest; cbn [map String.concat]; [apply app_nil_s|]. reflexivity.
Qed.

Lemma print_some : forall max nodes k, k < max <= k + length nodes ->
  print_nodes max k nodes = (String.concat "" (map node_line (firstn (max - k) nodes)), max).
Proof.
  intros max nodes. induction nodes as [|nd rest IH]; intros k H; cbn [print_nodes length] in *; [lia|].
  destruct (max - k) as [|m] eqn:Em; [lia|]. cbn [firstn map].
  destruct (Nat.eqb_spec (S k) max) as [<-|Hne].
  - replace m with 0 by lia. reflexivity.
  - rewrite IH by lia. f_equal. replace (max - S k) with m by lia. destruct m as [|m]; [lia|]. destruct rest; [cbn in H; lia|]. reflexivity.
Qed.

Lemma pprint_spec : forall t max, t_nodes t <> [] ->
  exists title,
    (title = if (0 <? max) && (max <? length (t_nodes t)) then "First " ++ showN (N.of_nat max) ++ " nodes:" ++ newline else "Nodes:" ++ newline) /\
    pprint t max =
      "Box size                 : " ++ showF (t_box t) ++ (if t_ded t then " (deduced)" else "") ++ newline ++
      "Total number of particles: " ++ showN (N.of_nat (length (t_codes t))) ++ newline ++
      "Total number of nodes    : " ++ showN (N.of_nat (length (t_nodes t))) ++ newline ++ newline ++ title ++
      String.concat "" (map node_line (if max =? 0 then t_nodes t else firstn max (t_nodes t))) ++
      (if (0 <? max) && (max <? length (t_nodes t)) then "..." ++ newline else "").
Proof.
  intros t max Hn. eexists. split; [reflexivity|]. unfold pprint.
  destruct (Nat.eqb_spec (length (t_nodes t)) 0) as [Z|_]; [destruct (t_nodes t); [now elim Hn|discriminate]|].
  repeat f_equal.
  - now destruct max.
  - destruct max as [|m]; cbn [Nat.eqb].
    + rewrite print_all by lia. cbn [plus]. rewrite Nat.ltb_irrefl. reflexivity.
    + replace (0 <? S m) with true by reflexivity. cbn [andb]. destruct (Nat.le_gt_cases (S m) (length (t_nodes t))) as [L|L].
      * rewrite print_some by lia. rewrite Nat.sub_0_r. reflexivity.
      * rewrite print_all by lia. rewrite firstn_all2 by lia. cbn [plus]. rewrite Nat.ltb_irrefl. destruct (Nat.ltb_spec (S m) (length (t_nodes t))); [lia|]. reflexivity.
Qed.

End Pprint.

(** Reading a printed code. *)
Fixpoint read_bits (acc : N) (s : string) : option N :=
  match s with
  | "" => Some acc
  | String a rest => if Ascii.eqb a "1" then read_bits (2 * acc + 1) rest else if Ascii.eqb a "0" then read_bits (2 * acc) rest else None
  end.

Lemma bitset_length : forall d code, String.length (bitset d code) = d.
Proof. induction d as [|d IH]; intros code; cbn; [reflexivity|]. now rewrite IH. Qed.

Lemma read_bitset : forall d code acc, read_bits acc (bitset d code) = Some (acc * 2 ^ N.of_nat d + code mod 2 ^ N.of_nat d)%N.
Proof.
  induction d as [|d IH]; intros code acc.
  { cbn. now rewrite N.mod_1_r, N.mul_1_r, N.add_0_r. }
  assert (Hm : (code mod 2 ^ N.of_nat (S d) = (if N.testbit code (N.of_nat d) then 2 ^ N.of_nat d else 0) + code mod 2 ^ N.of_nat d)%N).
  { rewrite Nat2N.inj_succ, N.pow_succ_r', N.mul_comm, N.mod_mul_r by (try apply N.pow_nonzero; discriminate).
    rewrite <- N.shiftr_div_pow2, N.add_comm. f_equal. rewrite <- N.bit0_mod, N.shiftr_spec by lia. rewrite N.add_0_l.
    destruct (N.testbit code (N.of_nat d)); cbn [N.b2n]; lia. }
  cbn [bitset read_bits]. rewrite Hm, Nat2N.inj_succ, N.pow_succ_r'.
  destruct (N.testbit code (N.of_nat d)); cbn [Ascii.eqb Bool.eqb]; rewrite IH; f_equal; nia.
Qed.

Lemma bitset_value : forall d code, (code < 2 ^ N.of_nat d)%N -> read_bits 0 (bitset d code) = Some code.
Proof. intros d code H. rewrite read_bitset. now rewrite N.mod_small. Qed.

(** * Printed nodes *)
Lemma com_text_concat : forall {F} (showF : F -> string) c com j, j + length com = dim c -> com_text showF c j com = String.concat ", " (map showF com).
Proof.
  intros F showF c com. induction com as [|x com IH]; intros j H; [reflexivity|]. cbn [com_text map length] in *. rewrite IH by lia.
  destruct com as [|y com]; cbn [map String.concat length] in *.
  - destruct (Nat.ltb_spec (S j) (dim c)); [lia|]. cbn. now rewrite app_nil_s.
  - destruct (Nat.ltb_spec (S j) (dim c)); [reflexivity|lia].
Qed.

Lemma showN_read : forall n, option_map N.of_uint (DecimalString.NilEmpty.uint_of_string (showN n)) = Some n.
Proof. intros n. unfold showN. rewrite DecimalString.NilEmpty.usu. cbn [option_map]. now rewrite DecimalN.Unsigned.of_to. Qed.
