#!/usr/bin/env python3
"""Inserts p(...) entries read from stdin before the final write in gen_properties.py and regenerates properties.jsonl."""
import os, sys, subprocess
d = os.path.dirname(os.path.abspath(__file__)); f = os.path.join(d, "gen_properties.py")
s = open(f).read(); a = s.index("with open(os.path.join"); s = s[:a] + sys.stdin.read().rstrip() + "\n" + s[a:]
open(f, "w").write(s); subprocess.run([sys.executable, f], check=True)
