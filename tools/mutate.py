"""Check that the property theorems notice realistic bugs in the model.

usage: mutate.py SCRATCH MUTATIONS.py [ID ...]

Run it in a checkout whose rocq/ has been built.  Every mutation edits one
definition of the model in a scratch copy of rocq/theories.  The statements are
rebuilt first, with the proofs left out (those inside sections are kept, because
they determine the arguments of the lemmas).  Then every proof is run again by
coqtop; one that no longer goes through is closed by [Admitted] and noted.  A
property theorem has failed if it depends on such a lemma, directly or not.  One
JSON line per mutation is written to SCRATCH/results.jsonl.

With FIRST=1 in the environment the files are taken one by one, and a mutation is
done with as soon as some theorem has failed.
"""
import concurrent.futures, json, os, re, select, shutil, subprocess, sys, time

ROOT = os.path.abspath(os.path.join(os.path.dirname(os.path.abspath(__file__)), "..", "rocq"))
LIMIT = 240          # seconds for a file
PATIENCE = 40        # seconds for a sentence
WORKERS = int(os.environ.get("WORKERS", "3"))
FIRST = os.environ.get("FIRST") == "1"
ENDS = ("Qed.", "Defined.", "Admitted.")
STATEMENT = re.compile(r"(?:#\[[^\]]*\]\s*)?(?:Local |Global )?(?:Lemma|Theorem|Example|Corollary|Fact|Remark)\s+(\w+)")

def files():
    lines = open(f"{ROOT}/_CoqProject").read().split()
    return [l[len("theories/"):-2] for l in lines if l.startswith("theories/")]

NAMES = files()

def imports():
    out = {}
    for n in NAMES:
        used = set()
        for m in re.findall(r"From Verif Require (?:Import|Export)([^.]*)\.", open(f"{ROOT}/theories/{n}.v").read()):
            used |= set(m.split())
        out[n] = used & set(NAMES)
    return out

IMPORTS = imports()

def baseline(cache):
    """The sentences of every file, from coqc -time."""
    path = f"{cache}/sentences.json"
    if os.path.exists(path):
        return json.load(open(path))
    def one(n):
        r = subprocess.run(["coqc", "-time", "-noglob", "-R", "theories", "Verif", "-o", f"{cache}/{n}.vo",
                            f"theories/{n}.v"], cwd=ROOT, capture_output=True, text=True)
        assert r.returncode == 0, r.stderr
        os.remove(f"{cache}/{n}.vo")
        raw = open(f"{ROOT}/theories/{n}.v", "rb").read()
        return n, [raw[int(a):int(b)].decode() for a, b in re.findall(r"^Chars (\d+) - (\d+) ", r.stdout, re.M)]
    with concurrent.futures.ThreadPoolExecutor(4) as pool:
        out = dict(pool.map(one, [n for n in NAMES if not n.startswith("Prop")]))
    json.dump(out, open(path, "w"))
    return out

def graph():
    """Which lemmas a lemma mentions, from the .glob files."""
    uses = {}
    for n in NAMES:
        owner = None
        entries = []
        for line in open(f"{ROOT}/theories/{n}.glob"):
            m = re.match(r"(\w+) (\d+):\d+ \S+ (\S+)$", line)
            if m and m.group(1) in ("prf", "def", "ind", "rec", "thm"):
                entries.append((int(m.group(2)), 0, m.group(3)))
            m = re.match(r"R(\d+):\d+ Verif\.(\w+) \S+ (\S+) \w+$", line)
            if m:
                entries.append((int(m.group(1)), 1, f"{m.group(2)}.{m.group(3)}"))
        for _, kind, name in sorted(entries):
            if kind == 0:
                owner = f"{n}.{name}"
                uses.setdefault(owner, set())
            elif owner:
                uses[owner].add(name)
    return uses

def reach(uses, start, bad):
    seen, todo = {start}, [start]
    while todo:
        x = todo.pop()
        if x in bad:
            return True
        for y in uses.get(x, ()):
            if y not in seen:
                seen.add(y)
                todo.append(y)
    return False

def skeleton(sentences, broken):
    """The file without its proofs, except inside sections; [broken] ones are left out there too."""
    out, skipping, depth, name = [], False, 0, None
    for s in sentences:
        if re.match(r"Section ", s):
            depth += 1
        if re.match(r"End ", s):
            depth -= 1
        m = STATEMENT.match(s)
        if m:
            name = m.group(1)
        if skipping:
            skipping = s not in ENDS
            continue
        if s == "Proof." and name and (depth == 0 or name in broken):
            # a transparent proof is needed by what follows
            out.append("Admitted." if name not in TRANSPARENT else s)
            skipping = name not in TRANSPARENT
            continue
        if s.startswith("Print Assumptions"):
            continue
        out.append(s)
    return "\n".join(out) + "\n"

TRANSPARENT = set()

def transparent(all_sentences):
    for ss in all_sentences.values():
        name = None
        for s in ss:
            m = STATEMENT.match(s)
            if m:
                name = m.group(1)
            if s == "Defined." and name:
                TRANSPARENT.add(name)

def coqc(scratch, n):
    try:
        r = subprocess.run(["coqc", "-noglob", "-R", "theories", "Verif", f"theories/{n}.v"],
                           cwd=scratch, capture_output=True, text=True, timeout=LIMIT)
        return r.returncode, r.stderr
    except subprocess.TimeoutExpired:
        return 124, "timeout"

def enclosing(path, line):
    """The statement before a line of a file."""
    found = None
    for l in open(path).read().split("\n")[:line]:
        m = STATEMENT.match(l)
        if m:
            found = m.group(1)
    return found

def probe(scratch, sentences):
    """The proofs that fail, and what stopped the pass if anything did."""
    top = subprocess.Popen(["coqtop", "-q", "-emacs", "-R", "theories", "Verif"], cwd=scratch,
                           stdin=subprocess.PIPE, stdout=subprocess.PIPE, stderr=subprocess.STDOUT)
    said = [b""]
    def ask(text, limit=4 * PATIENCE):
        if text is not None:
            top.stdin.write(text.encode() + b"\n")
            top.stdin.flush()
        out, stop = b"", time.time() + limit
        while not out.rstrip().endswith(b"</prompt>"):
            ready, _, _ = select.select([top.stdout], [], [], max(0, stop - time.time()))
            data = os.read(top.stdout.fileno(), 65536) if ready else b""
            if not data:
                raise EOFError
            out += data
        said[0] = out
        return b"Error:" not in out and b"Timeout!" not in out
    found, skipping, name, trouble = [], False, None, None
    try:
        ask(None)
        ask(f"Set Default Timeout {PATIENCE}.")
        for text in sentences:
            if skipping:
                skipping = text not in ENDS
                continue
            if text.startswith("Print Assumptions"):
                continue
            m = STATEMENT.match(text)
            if m:
                name = m.group(1)
            if ask(text):
                continue
            if m or name is None or not ask("Admitted."):
                trouble = f"{text[:200]}: {said[0][-400:].decode('utf8', 'ignore')}"
                break
            found.append(name)
            skipping = text not in ENDS
    except (EOFError, BrokenPipeError):
        # no answer: the proof is stuck
        found.append(name)
        trouble = f"stuck in {name}"
    top.kill()
    top.wait()
    return found, trouble

def check(scratch, n, all_sentences, bad, troubles):
    """Run the proofs of a file and note what fails."""
    rest = all_sentences[n]
    if not any(s == "Proof." for s in rest):
        return
    while True:
        found, trouble = probe(scratch, rest)
        bad |= {f"{n}.{x}" for x in found}
        if trouble and trouble.startswith("stuck"):
            # leave the stuck proof out and start again
            out, skipping, name = [], False, None
            for s in rest:
                m = STATEMENT.match(s)
                if m:
                    name = m.group(1)
                if skipping:
                    skipping = s not in ENDS
                    continue
                if s == "Proof." and name == found[-1]:
                    out.append("Admitted.")
                    skipping = True
                    continue
                out.append(s)
            rest = out
            continue
        if trouble:
            troubles.append(f"{n}: {trouble}")
        return

def reached(uses, dirty, bad):
    """The property theorems that depend on a lemma that fails."""
    failed = []
    for n in NAMES:
        if n.startswith("Prop") and n in dirty:
            for t in re.findall(r"^Theorem (\w+)", open(f"{ROOT}/theories/{n}.v").read(), re.M):
                if reach(uses, f"{n}.{t}", bad):
                    failed.append(t)
    return failed

def run(base, mutation, all_sentences, uses):
    ident, edited = mutation["id"], mutation["file"]
    scratch = f"{base}/{ident}"
    shutil.rmtree(scratch, ignore_errors=True)
    os.makedirs(f"{scratch}/theories")
    text = open(f"{ROOT}/theories/{edited}.v").read()
    for old, new in mutation["edits"]:
        if text.count(old) != 1:
            return {**mutation, "error": f"{text.count(old)} matches of {old!r}"}
        text = text.replace(old, new)
    dirty, bad, troubles = {edited}, set(), []
    for n in NAMES:
        if n != edited and not (IMPORTS[n] & dirty):
            for end in ("vo", "v"):
                os.symlink(f"{ROOT}/theories/{n}.{end}", f"{scratch}/theories/{n}.{end}")
            continue
        dirty.add(n)
        if n.startswith("Prop"):
            continue
        path = f"{scratch}/theories/{n}.v"
        broken = set()
        while True:
            open(path, "w").write(text if n == edited else skeleton(all_sentences[n], broken))
            code, err = coqc(scratch, n)
            if code == 0:
                break
            m = re.search(r'File "[^"]*", line (\d+),', err)
            name = enclosing(path, int(m.group(1))) if m else None
            if n == edited or name is None or name in broken:
                shutil.rmtree(scratch, ignore_errors=True)
                return {**mutation, "error": f"{n}: {err[-600:]}", "lemmas": sorted(bad)}
            broken.add(name)
        bad |= {f"{n}.{x}" for x in broken}
        if FIRST and n != edited:
            check(scratch, n, all_sentences, bad, troubles)
            if bad and reached(uses, NAMES, bad):
                dirty = NAMES
                break
    if not FIRST:
        for n in NAMES:
            if n in dirty and n != edited and not n.startswith("Prop"):
                check(scratch, n, all_sentences, bad, troubles)
    failed = reached(uses, dirty, bad)
    shutil.rmtree(scratch, ignore_errors=True)
    out = {**mutation, "failed": failed, "lemmas": sorted(bad)}
    if troubles:
        out["troubles"] = troubles
    return out

def main():
    base, source, wanted = sys.argv[1], sys.argv[2], set(sys.argv[3:])
    os.makedirs(base, exist_ok=True)
    scope = {}
    exec(open(source).read(), scope)
    done = set()
    results = f"{base}/results.jsonl"
    if os.path.exists(results):
        done = {json.loads(l)["id"] for l in open(results)}
    todo = [m for m in scope["MUTATIONS"] if (m["id"] in wanted if wanted else m["id"] not in done)]
    all_sentences, uses = baseline(base), graph()
    transparent(all_sentences)
    with concurrent.futures.ThreadPoolExecutor(WORKERS) as pool:
        for f in concurrent.futures.as_completed([pool.submit(run, base, m, all_sentences, uses) for m in todo]):
            r = f.result()
            with open(results, "a") as h:
                h.write(json.dumps(r) + "\n")
            print(r["id"], r.get("error") or r["failed"], r.get("troubles", ""), flush=True)

main()
