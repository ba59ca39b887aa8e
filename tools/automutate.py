#!/usr/bin/env python3
"""Generate mutants of the model mechanically.  usage: automutate.py OUT.json SEED PER_DEF FILE...
Each mutant changes one token of one definition: a comparison, a connective, a constant, a time
scale, an exception, the order of an append, the branches of a conditional."""
import json, random, re, sys
SRC = '/verif/rocq/theories'
OPS = [
    (r'Nat\.ltb', 'Nat.leb'), (r'Nat\.leb', 'Nat.ltb'), (r'Qltb', 'Qle_bool'), (r'Qle_bool', 'Qltb'),
    (r'\bnegb \(', '('), (r'&&', '||'), (r'\|\|', '&&'), (r'\btrue\b', 'false'), (r'\bfalse\b', 'true'),
    (r'\bforallb\b', 'existsb'), (r'\bexistsb\b', 'forallb'), (r'\bandb\b', 'orb'), (r'\borb\b', 'andb'),
    (r'(?<![\w.])0(?![\w.])', '1'), (r'(?<![\w.])1(?![\w.])', '0'), (r'(?<![\w.])1(?![\w.])', '2'),
    (r'\bESU\b', 'PASS'), (r'\bESU\b', 'ES'), (r'\bES\b', 'ESU'), (r'\bPASS\b', 'ESU'), (r'\bCSE\b', 'PASS'), (r'\bLIFE\b', 'ES'),
    (r'\bLt\b', 'Le'), (r'\bLe\b', 'Lt'), (r'\bGt\b', 'Ge'), (r'\bGe\b', 'Gt'),
    (r'\bEKey\b', 'EValue'), (r'\bEScheduler\b', 'ECondition'), (r'\bECondition\b', 'EScheduler'), (r'\bETimeScale\b', 'EIndex'),
    (r'\bEValue\b', 'EType'), (r'\bEType\b', 'EValue'), (r'\bEIndex\b', 'EKey'),
    (r'\bNat\.max\b', 'Nat.min'), (r'\bNat\.min\b', 'Nat.max'), (r'\brev ', ''), (r'\bfst\b', 'snd'), (r'\bsnd\b', 'fst'),
    (r'(?<= )\+(?= )', '-'), (r'(?<= )-(?= )', '+'), (r'\bS (?=\w)', ''),
    (r'\bin_sets?\b', 'not_in'), (r'\bnodup\b', 'id'), (r'\bdedup\b', 'id'), (r'\bPDone\b', 'PIdle'), (r'\bOStop\b', 'OReturn []'),
    (r'\bremove_assoc\b', 'id'),
]
def strip(s):
    """blank out comments, keeping offsets"""
    out, d, i = list(s), 0, 0
    while i < len(s):
        if s.startswith('(*', i): d += 1; out[i] = out[i + 1] = ' '; i += 2; continue
        if s.startswith('*)', i) and d: d -= 1; out[i] = out[i + 1] = ' '; i += 2; continue
        if d and s[i] != '\n': out[i] = ' '
        i += 1
    return ''.join(out)
HEAD = re.compile(r'^\s*(Definition|Fixpoint|with)\s+(\w+)', re.M)
def main():
    out, seed, per = sys.argv[1], int(sys.argv[2]), int(sys.argv[3])
    rnd = random.Random(seed); res = []
    for f in sys.argv[4:]:
        raw = open(f'{SRC}/{f}.v').read(); s = strip(raw)
        hs = list(HEAD.finditer(s))
        for k, h in enumerate(hs):
            end = re.compile(r'\.\s*\n').search(s, h.end()); e = end.start() if end else len(s)
            b = s.find(':=', h.end()); b = b if 0 <= b < e else h.end()
            c = []
            for a, r in OPS:
                if r is None: continue
                for m in re.compile(a).finditer(s, b, e): c.append((m.start(), m.end(), r))
            for m in re.compile(r'\bthen ((?:(?!\bthen\b|\belse\b|\bif\b).)*?) else ([^|;)\n]*?)(?=\)|\n|$|\.| end)').finditer(s, b, e):
                c.append((m.start(), m.end(), f'then {m.group(2)} else {m.group(1)}'))
            for m in re.compile(r'([\w.]+|\([^()]*\)|\[[^][]*\]) \+\+ ([\w.]+|\([^()]*\)|\[[^][]*\])').finditer(s, b, e):
                c.append((m.start(), m.end(), f'{m.group(2)} ++ {m.group(1)}'))
            rnd.shuffle(c)
            for st, en, r in c[:per]:
                # a unique piece of text around the place
                a0, b0 = st, en
                while raw.count(raw[a0:b0]) != 1: a0 = max(0, a0 - 1); b0 = min(len(raw), b0 + 1)
                line = raw[raw.rfind('\n', 0, st) + 1: raw.find('\n', en)].strip()
                res.append(dict(file=f, old=raw[a0:b0], new=raw[a0:st] + r + raw[en:b0], definition=h.group(2),
                                edit=f'"{raw[st:en]}" becomes "{r}" in: {line}', claim='what ' + h.group(2) + ' computes'))
    rnd.shuffle(res)
    json.dump(res, open(out, 'w'), indent=1); print(len(res))
main()
