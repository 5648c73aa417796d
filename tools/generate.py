"""Write small edits of every definition of the model, one token at a time.

usage: generate.py > MUTATIONS.py

The edits are those of mutation testing: constants off by one, comparisons with
the wrong boundary, connectives and branches exchanged, errors of the other
kind, panics that become errors, a stream that is not advanced.  The output is
read by mutate.py; no claims are named, so the question is whether any theorem
notices.  The order is shuffled, in the same way each time, so that any initial part is
a sample.
"""
import os, random, re

ROOT = os.path.join(os.path.dirname(os.path.abspath(__file__)), "..", "rocq", "theories")
FILES = ["Base", "Float", "Utf8", "C1Number", "C1Operation", "C1Index", "C1Glyphs", "C1FontSet",
         "T2Number", "T2Operation", "T2Program", "T2Machine", "C1Tape", "T2Effort", "C1Plan"]

def blank(text):
    """The text with comments replaced by spaces."""
    out, depth, i = [], 0, 0
    while i < len(text):
        if text.startswith("(*", i):
            depth += 1
            out.append("  ")
            i += 2
        elif text.startswith("*)", i):
            depth -= 1
            out.append("  ")
            i += 2
        else:
            out.append(text[i] if depth == 0 or text[i] == "\n" else " ")
            i += 1
    return "".join(out)

def number(s, d):
    v = int(s, 0) + d
    return hex(v) if s.startswith("0x") else str(v)

RULES = [
    (r"(?<![\w.%])(0x[0-9a-fA-F]+|\d+)(?![\w.]| \^)", lambda m: [(number(m.group(), 1), "a constant plus one")] +
        ([(number(m.group(), -1), "a constant minus one")] if int(m.group(), 0) > 0 else [])),
    (r"<\?", lambda m: [("<=?", "< becomes <=")]),
    (r"<=\?", lambda m: [("<?", "<= becomes <")]),
    (r"(?<![<>])=\?", lambda m: [("<=?", "= becomes <=")]),
    (r"&&", lambda m: [("||", "and becomes or")]),
    (r"\|\|", lambda m: [("&&", "or becomes and")]),
    (r"\bnegb\b", lambda m: [("id", "a negation dropped")]),
    (r"\btrue\b", lambda m: [("false", "true becomes false")]),
    (r"\bfalse\b", lambda m: [("true", "false becomes true")]),
    (r"\bErr Other\b", lambda m: [("Err UnexpectedEof", "an error of the other kind")]),
    (r"\bErr UnexpectedEof\b", lambda m: [("Err Other", "an error of the other kind")]),
    (r"\bPanic [A-Z]\w+", lambda m: [("Err Other", "an error instead of a panic")]),
    (r"\bfirstn\b", lambda m: [("skipn", "the other part of a list")]),
    (r"\bskipn\b", lambda m: [("firstn", "the other part of a list")]),
    (r"(?<= )\+(?= )", lambda m: [("-", "a sum becomes a difference")]),
    (r"(?<= )-(?= )", lambda m: [("+", "a difference becomes a sum")]),
    (r"\b(s|r|st)(\d)\b(?=( in| with|;|\)| then))", lambda m: [(m.group(1) + (str(int(m.group(2)) - 1) if m.group(2) > "1" else ""), "a stream that is not advanced")]),
    (r"\bZ\.max\b", lambda m: [("Z.min", "the lesser instead of the greater")]),
    (r"\bZ\.min\b", lambda m: [("Z.max", "the greater instead of the lesser")]),
    (r"\bas_i16\b(?= [a-z(])", lambda m: [("id", "a cast dropped")]),
    (r"\bas_i32\b(?= [a-z(])", lambda m: [("id", "a cast dropped")]),
    (r"\bas_u16\b(?= [a-z(])", lambda m: [("id", "a cast dropped")]),
    (r"\bas_u64\b(?= [a-z(])", lambda m: [("id", "a cast dropped")]),
    (r"\bas_usize\b(?= [a-z(])", lambda m: [("id", "a cast dropped")]),
    (r"\bequal\b(?= \d)", lambda m: [("modulo", "operands in groups")]),
    (r"\bmaybe_equal\b(?= \d)", lambda m: [("equal", "an optional operand required")]),
    (r"\bmodulo\b(?= \d)", lambda m: [("maybe_modulo", "groups may be absent")]),
    (r"\bmaybe_modulo\b(?= \d)", lambda m: [("modulo", "groups may not be absent")]),
    (r"\bUnexpectedEof\b(?= =>)", lambda m: [("Other", "the other kind of error caught")]),
]

def unique(text, a, b, new):
    """An edit that matches once: the token with as much of its surroundings as needed."""
    lo, hi = a, b
    while text.count(text[lo:hi]) != 1:
        lo, hi = max(0, lo - 8), min(len(text), hi + 8)
    return text[lo:hi], text[lo:a] + new + text[b:hi]

count, out = 0, []
for f in FILES:
    text = open(f"{ROOT}/{f}.v").read()
    code = blank(text)
    starts = [(m.start(), m.group(1), m.group(2)) for m in
              re.finditer(r"^\s*(Definition|Fixpoint|Inductive|Record|Notation|From|Section|Context|Arguments|Export|End|#\[global\])\s+(\S+)", code, re.M)]
    for k, (at, kind, name) in enumerate(starts):
        if kind not in ("Definition", "Fixpoint") or name.endswith("_profile"):
            continue
        end = starts[k + 1][0] if k + 1 < len(starts) else len(code)
        for pattern, replacements in RULES:
            for m in re.finditer(pattern, code[at:end]):
                a, b = at + m.start(), at + m.end()
                for new, what in replacements(m):
                    count += 1
                    if "codes" in name and count % 10:
                        continue    # a table of constants: one in ten will do
                    old, changed = unique(text, a, b, new)
                    line = text.count("\n", 0, a) + 1
                    out.append({
                        "id": f"A{count:04d}", "file": f, "definition": name, "edits": [(old, changed)],
                        "edit": f"{what}: {text[a:b]} to {new} in line {line}", "claims": []})
random.Random(0).shuffle(out)
print("MUTATIONS = []")
for m in out:
    print(f"MUTATIONS.append({m!r})")
