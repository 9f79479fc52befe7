[
 {
  "id": "st1",
  "file": "Strings",
  "definition": "escape",
  "old": "else if c =? NL then [esc; \"n\"]",
  "new": "",
  "edit": "newlines are not escaped",
  "claim": "C07: no raw newline"
 },
 {
  "id": "st2",
  "file": "Strings",
  "definition": "escape",
  "old": "(if (c =? esc) || (c =? quote) then [esc; c]",
  "new": "(if (c =? quote) then [esc; c]",
  "edit": "escape characters are not escaped",
  "claim": "C07: round trip"
 },
 {
  "id": "st3",
  "file": "Strings",
  "definition": "unescape",
  "old": "else if d =? \"n\" then option_map (cons NL) (unescape esc quote s'')",
  "new": "else if d =? \"n\" then option_map (cons d) (unescape esc quote s'')",
  "edit": "\\n unescaped to n",
  "claim": "C07: round trip"
 },
 {
  "id": "st4",
  "file": "Strings",
  "definition": "unescape",
  "old": "else option_map (cons esc) (unescape esc quote s')",
  "new": "else option_map (cons esc) (unescape esc quote s'')",
  "edit": "the character after an invalid escape is dropped",
  "claim": "C07: unescape of texts with invalid escapes"
 },
 {
  "id": "st5",
  "file": "Strings",
  "definition": "unquote",
  "old": "if negb (last s c =? q) then None else Some (removelast (tl s))",
  "new": "if negb (last s c =? q) then None else Some (tl s)",
  "edit": "closing quote kept",
  "claim": "C07: unquote"
 },
 {
  "id": "st6",
  "file": "Strings",
  "definition": "unquote",
  "old": "if negb (c =? q) then Some s else",
  "new": "if negb (c =? q) then None else",
  "edit": "unquoted text rejected",
  "claim": "C07: unquoting an unquoted text returns it"
 },
 {
  "id": "st7",
  "file": "Strings",
  "definition": "unquote",
  "old": "if negb (last s c =? q) then None else Some",
  "new": "Some",
  "edit": "missing closing quote accepted",
  "claim": "C07: unbalanced quotes are rejected"
 },
 {
  "id": "st8",
  "file": "Strings",
  "definition": "replace_loop",
  "old": "replace_loop f (replace s p (length from) to) from to (p + length to)",
  "new": "replace_loop f (replace s p (length from) to) from to p",
  "edit": "rescans the replacement",
  "claim": "C07: replace_all does not rescan"
 },
 {
  "id": "st9",
  "file": "Strings",
  "definition": "replace_loop",
  "old": "replace_loop f (replace s p (length from) to) from to (p + length to)",
  "new": "replace_loop f (replace s p (length from) to) from to (p + length from)",
  "edit": "continues at the wrong position",
  "claim": "C07: replace_all replaces all occurrences"
 },
 {
  "id": "st10",
  "file": "Strings",
  "definition": "html_escape",
  "old": "[\"&\"; \"g\"; \"t\"; \";\"]",
  "new": "[\"&\"; \"l\"; \"t\"; \";\"]",
  "edit": "> escaped as &lt;",
  "claim": "C07: html_escape"
 },
 {
  "id": "st11",
  "file": "Strings",
  "definition": "like_col0",
  "old": "let er' := if negb escaped && (c =? esc) then S i else er in",
  "new": "let er' := if (c =? esc) then S i else er in",
  "edit": "an escaped escape character escapes the next character",
  "claim": "C08: LIKE"
 },
 {
  "id": "st12",
  "file": "Strings",
  "definition": "like_row",
  "old": "(negb escaped && (c =? \"_\")) || (x =? c)",
  "new": "(c =? \"_\") || (x =? c)",
  "edit": "escaped underscore matches any character",
  "claim": "C08: LIKE"
 },
 {
  "id": "st13",
  "file": "Strings",
  "definition": "like_row",
  "old": "if negb escaped && (c =? \"%\") then left || u",
  "new": "if negb escaped && (c =? \"%\") then left || diag",
  "edit": "% must consume a character",
  "claim": "C08: LIKE"
 },
 {
  "id": "st14",
  "file": "Strings",
  "definition": "like_rows",
  "old": "(c0 :: like_row escaped c s d up c0)",
  "new": "(c0 :: like_row escaped c s d up false)",
  "edit": "left neighbour of the first column lost",
  "claim": "C08: LIKE"
 },
 {
  "id": "st15",
  "file": "Strings",
  "definition": "like_col0",
  "old": "if escaped && negb (c =? \"_\") && negb (c =? \"%\") && negb (c =? esc) then None else",
  "new": "",
  "edit": "invalid escape sequences accepted",
  "claim": "C08: invalid patterns are rejected"
 },
 {
  "id": "st16",
  "file": "Strings",
  "definition": "like_col0",
  "old": "[] => if (i =? er)%nat then None else Some []",
  "new": "[] => Some []",
  "edit": "pattern ending in an escape character accepted",
  "claim": "C08: invalid patterns are rejected"
 }
]