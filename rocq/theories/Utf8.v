(** The well-formedness test of [String::from_utf8] (used in
    steit/src/impls/string.rs 34-36).  The standard library is not in /repo; this
    is the table of the Unicode standard, section 3.9, which [from_utf8] implements. *)
From Verif Require Import Base.

Definition between (lo hi b : N) : bool := (lo <=? b) && (b <=? hi).

Fixpoint utf8_valid (bs : bytes) : bool :=
  match bs with
  | [] => true
  | b0 :: r0 =>
      if b0 <=? 0x7F then utf8_valid r0
      else match r0 with
      | [] => false
      | b1 :: r1 =>
          if between 0xC2 0xDF b0 then between 0x80 0xBF b1 && utf8_valid r1
          else match r1 with
          | [] => false
          | b2 :: r2 =>
              if b0 =? 0xE0 then between 0xA0 0xBF b1 && between 0x80 0xBF b2 && utf8_valid r2
              else if b0 =? 0xED then between 0x80 0x9F b1 && between 0x80 0xBF b2 && utf8_valid r2
              else if between 0xE1 0xEF b0 then between 0x80 0xBF b1 && between 0x80 0xBF b2 && utf8_valid r2
              else match r2 with
              | [] => false
              | b3 :: r3 =>
                  if b0 =? 0xF0
                  then between 0x90 0xBF b1 && between 0x80 0xBF b2 && between 0x80 0xBF b3 && utf8_valid r3
                  else if between 0xF1 0xF3 b0
                  then between 0x80 0xBF b1 && between 0x80 0xBF b2 && between 0x80 0xBF b3 && utf8_valid r3
                  else if b0 =? 0xF4
                  then between 0x80 0x8F b1 && between 0x80 0xBF b2 && between 0x80 0xBF b3 && utf8_valid r3
                  else false
              end
          end
      end
  end.
