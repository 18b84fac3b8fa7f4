(** Which lines a C# client has to write about a value: a specification to compare [warns] of CsWarn.v with.  It looks at the value
    that another version of the program wrote and at the class of the client, not at bytes. *)
From Verif Require Import Base Varint WireFmt Types Ser Spec CSharp CsWarn.

(** One for each field that is written and has another wire type in the class; fields that are left out (ser.rs 67-78), that the class
    has not, and the fields of a variant that it has not, are not mentioned, nor is what is in a field of another wire type. *)
Fixpoint news (v : val) (c : cty) (p : list N) {struct v} : list warning :=
  let fields := fix fields (fs : list (finfo * val)) (cfs : list (N * (bool * cty))) (p : list N) : list warning :=
    match fs with
    | [] => []
    | (fi, x) :: fs' =>
        (if left_out x (enc x) then []
         else match assoc (f_tag fi) cfs with
              | Some (g, c) => if wtype_eqb (vwty x) (c_field_wty g c) then news x c (p ++ [f_tag fi]) else [(c_field_wty g c, p ++ [f_tag fi], vwty x)]
              | None => []
              end) ++ fields fs' cfs p
    end in
  let items := fix items (i : N) (l : list val) (c : cty) (p : list N) : list warning :=
    match l with [] => [] | x :: l' => news x c (p ++ [i]) ++ items (i + 1) l' c p end in
  let entries := fix entries (es : list (N * val)) (c : cty) (p : list N) : list warning :=
    match es with [] => [] | (k, x) :: es' => news x c (p ++ [k]) ++ entries es' c p end in
  match v, c with
  | VOpt (Some x), COpt c => news x c (p ++ [0])
  | VVec l, CVec c | VArr l, CVec c | VList _ l, CList c => items 0 l c p
  | VBox x, _ => news x c p
  | VStruct _ _ fs, CStruct cfs => fields fs cfs p
  | VEnum tag _ _ fs, CEnum cvs => match assoc tag cvs with Some cfs => fields fs cfs (p ++ [tag]) | None => [] end
  | VMap _ es, CMap c => entries es c p
  | _, _ => []
  end.
