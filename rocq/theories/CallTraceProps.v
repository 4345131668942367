(* C82: traces of calls of covariance functions. *)
From Coq Require Import Reals String Ascii.
From Verif Require Import Base ExtRealModel CallTraceModel CallTraceSpec CallTraceProofs.
Open Scope string_scope.
Open Scope nat_scope.
Open Scope list_scope.

(* the assertions never fail; there is one line per call, each before those that it makes, with a bar per level, the operator of its
   parent, its name and its value *)
Theorem C82_trace to_string show c : get_trace to_string show c = Ok (map line (calls to_string show 0 None c)).
Proof. exact (trace_spec to_string show c). Qed.
Print Assumptions C82_trace.

(* the first line has the name of the covariance function and its value *)
Theorem C82_first to_string show c : stateless c -> forall t, get_trace to_string show c = Ok t -> exists rest,
  t = (get_name c, match c with Leaf _ _ v => printed to_string v | _ => printed show (call c) end) :: rest.
Proof.
  intros S t E. rewrite C82_trace in E. injection E as <-. rewrite callsE. cbn [map]. eexists. f_equal.
  unfold line, indented. cbn [parent e_name e_value]. f_equal. rewrite <- (default_stateless c S). destruct c; [exact (eq_sym (eq_sym S))|reflexivity|reflexivity].
Qed.
Print Assumptions C82_first.
(* the value of a sum is the sum of the values and that of a product their product; a side that is not defined for the
   features is left out *)
Theorem C82_value l r :
  (forall x y, call l = Some x -> call r = Some y -> call (Sum l r) = Some (x + y)%R /\ call (Product l r) = Some (x * y)%R) /\
  (call l = None -> call (Sum l r) = call r /\ call (Product l r) = call r) /\
  (call r = None -> call (Sum l r) = call l /\ call (Product l r) = call l).
Proof.
  split; [|split].
  - intros x y Hx Hy. cbn [call]. rewrite Hx, Hy. split; [reflexivity|]. destruct (Reqb x 0) eqn:E; [|reflexivity].
    unfold Reqb in E. destruct (Req_EM_T x 0) as [->|]; [f_equal; ring|discriminate].
  - intros H. cbn [call]. rewrite H. split; reflexivity.
  - intros H. cbn [call]. rewrite H. destruct (call l); split; reflexivity.
Qed.
Print Assumptions C82_value.
(* but a composition is named after default constructed parts *)
Theorem C82_name_refuted to_string show : exists c t, get_trace to_string show c = Ok t /\ map fst t <> [] /\
  forall n v rest, t = (n, v) :: rest -> n <> get_name c.
Proof.
  exists (Sum (Leaf "left" "default" (Some 1%R)) (Leaf "right" "right" None)). eexists. split; [reflexivity|].
  split; [discriminate|]. intros n v rest E. injection E as <- _ _. discriminate.
Qed.
Print Assumptions C82_name_refuted.

(* the functions of a trace tell the expression that was traced, when no name of a part begins with a blank *)
Theorem C82_shape to_string show c1 c2 t1 t2 : plain c1 = true -> plain c2 = true ->
  get_trace to_string show c1 = Ok t1 -> get_trace to_string show c2 = Ok t2 -> map fst t1 = map fst t2 -> shape_of c1 = shape_of c2.
Proof. exact (trace_inj to_string show c1 c2 t1 t2). Qed.
Print Assumptions C82_shape.

(* two rows of headings, then each value padded to a common width, at least two more than its length, and its function *)
Theorem C82_print t : exists w headings, print_call_trace t = headings ++ map (fun cv => (setw w (snd cv) ++ setw 100 (fst cv))%string) t /\
  length headings = 2 /\ Forall (fun cv => String.length (snd cv) + 2 <= w /\ String.length (setw w (snd cv)) = w) t.
Proof. exact (print_spec t). Qed.
Print Assumptions C82_print.

Example C82_meets : let c := Sum (Product (Leaf "a" "a" (Some 2%R)) (Leaf "b" "b" None)) (Leaf "n" "n" (Some 1%R)) in
  plain c = true /\ stateless c /\
  get_trace (fun _ => "v") (fun _ => "w") c =
  Ok [("((a*b)+n)", "w"); (" |+ (a*b)", " |+ w"); (" |   |* a", " |   |* v"); (" |   |* b", " |   |* UNDEFINED"); (" |+ n", " |+ v")].
Proof. repeat split. Qed.
